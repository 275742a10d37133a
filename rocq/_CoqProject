-Q theories Verif
theories/Base.v
theories/GraphModel.v
theories/CsrProofs.v
theories/ConstructProofs.v
theories/GraphSpec.v
theories/AccessProofs.v
theories/AccessProofs2.v
theories/CountProofs.v
theories/GraphTop.v
theories/GraphTop2.v
theories/GraphTop3.v
theories/GraphProps.v
theories/PcuCollModel.v
theories/PcuCollExec.v
theories/PcuCollProofs.v
theories/PcuCollTop.v
theories/PcuCollProps.v
theories/PcuAAModel.v
theories/PcuAAProofs.v
theories/PcuMsgModel.v
theories/PcuAAProps.v
theories/PcuMsgProofs.v
theories/PcuPhaseProofs.v
theories/PcuMsgProps.v
theories/PcuIOModel.v
theories/PcuIOProps.v
theories/Comm.v
theories/TagModel.v
theories/TagProps.v
theories/MigrateModel.v
theories/MigrateSpec.v
theories/MigrateProofs1.v
theories/MigrateProofs2.v
theories/MigrateProofs3.v
theories/MigrateProofs4.v
theories/MigrateProofs5.v
theories/MigrateTop.v
theories/RepartModel.v
theories/RepartProofs.v
theories/MigrateProps.v
theories/WeightMigModel.v
theories/WeightMigProps.v
theories/SecondAdjModel.v
theories/SecondAdjProofs.v
theories/SecondAdjProps.v
theories/SdModel.v
theories/SdProps.v
theories/TimersModel.v
theories/TimersProps.v
theories/ConnModel.v
theories/ConnSpec.v
theories/ConnProps.v
theories/SplitModel.v
theories/SplitProofs.v
theories/SplitProps.v
theories/LogModel.v
theories/LogProps.v
theories/MetricsModel.v
theories/MetricsProofs.v
theories/MetricsProps.v
theories/SidesProofs.v
theories/SidesProps.v
theories/QueueModel.v
theories/SortProofs.v
theories/QueueProps.v
theories/BfsProofs.v
theories/BfsPush.v
theories/BfsPull.v
theories/SearchView.v
theories/BfsProps.v
theories/BalanceModel.v
theories/BalanceProps.v
theories/SelectorModel.v
theories/SelectorProofs.v
theories/SelectorTop.v
theories/SelectorTop2.v
theories/SelectorProps.v
theories/SelectProofs.v
theories/SelectProps.v
theories/GraphIOModel.v
theories/GraphIOProofs.v
theories/GraphIOProps.v
theories/ValidModel.v
theories/ValidProofs.v
theories/ValidProps.v
theories/ParmetisModel.v
theories/ParmetisSpec.v
theories/ParmetisProofs.v
theories/ParmetisView.v
theories/ParmetisProps.v
theories/BinModel.v
theories/BinProofs.v
theories/BinCsr.v
theories/BinSpec.v
theories/BinTop.v
theories/BinProps.v
theories/DistSets.v
theories/DistLayers.v
theories/DistProps.v
theories/StepModel.v
theories/StepProofs.v
theories/StepProps.v
theories/TradSpec.v
theories/TradProofs1.v
theories/TradProofs2.v
theories/TradProps.v
theories/WBalModel.v
theories/WBalProofs1.v
theories/WBalProofs2.v
theories/WBalSpec.v
theories/WBalProofs3.v
theories/WBalProofs4.v
theories/WBalProofs5.v
theories/WBalProps.v
theories/ColorModel.v
theories/ColorProofs.v
theories/ColorProofs2.v
theories/ColorProps.v
theories/ZoltanModel.v
theories/ZoltanProps.v
theories/MeshModel.v
theories/MeshProofs1.v
theories/MeshProofs2.v
theories/MeshProofs3.v
theories/MeshProofs4.v
theories/MeshProofs5.v
theories/MeshProofs6.v
theories/MeshCheck.v
theories/MeshProps.v
theories/MeshDofProps.v
theories/SidesTradProps.v
theories/VtkModel.v
theories/VtkSpec.v
theories/VtkProofs.v
theories/VtkProps.v
theories/VcutModel.v
theories/CutProps.v
theories/VcutSpec.v
theories/VcutProofs.v
theories/VcutProofs2.v
theories/VcutProps.v
theories/SplitTradProps.v
theories/ParmetisTradProps.v
theories/EvalModel.v
theories/EvalProps.v
theories/CengparModel.v
theories/CengparProps.v
theories/PcuRwModel.v
theories/PcuRwSpec.v
theories/PcuRwProofs.v
theories/PcuRwProps.v
theories/PcuApiModel.v
theories/PcuApiSpec.v
theories/PcuApiProps.v
theories/SelectTradProps.v
theories/StepTradProps.v
theories/MessageModel.v
theories/MessageProps.v
theories/PcuDebugModel.v
theories/PcuDebugProps.v
theories/IntModel.v
theories/IntProps.v
theories/SplitCommModel.v
theories/SplitCommProps.v
theories/FloatModel.v
theories/FloatSpec.v
theories/FloatProofs.v
theories/FloatProofs2.v
theories/FloatProofs3.v
theories/FloatProofs4.v
theories/FloatProps.v
theories/CancelFloatModel.v
theories/CancelFloatSpec.v
theories/CancelFloatProofs.v
theories/CancelFloatProofs2.v
theories/CancelFloatProps.v
theories/GrantFloatProps.v
theories/TransferFloatModel.v
theories/TransferFloatProps.v
theories/AllGrantFloatProps.v
