-Q theories Verif
theories/Base.v
theories/BaseProofs.v
theories/Vec.v
theories/GeometryModel.v
theories/GeometrySpec.v
theories/GeometryProofs.v
theories/GeometryProps.v
theories/AngleProps.v
theories/WallModel.v
theories/WallSpec.v
theories/WallProofs.v
theories/WallProps.v
theories/RayModel.v
theories/RaySpec.v
theories/RayProofs.v
theories/RayProps.v
theories/HistogramModel.v
theories/HistogramSpec.v
theories/HistogramProofs.v
theories/HistogramProps.v
theories/ParModel.v
theories/ParProofs.v
theories/PoolModel.v
theories/PoolSpec.v
theories/PoolProofs.v
theories/PoolProps.v
theories/RirModel.v
theories/RirSpec.v
theories/RirProofs.v
theories/RirProps.v
theories/SimulateModel.v
theories/SimulateSpec.v
theories/SimulateProofs.v
theories/SimulateProps.v
theories/IsmModel.v
theories/IsmSpec.v
theories/IsmProofs.v
theories/IsmProps.v
theories/ShoeboxModel.v
theories/ShoeboxSpec.v
theories/ShoeboxProofs.v
theories/ShoeboxProps.v
theories/RoomModel.v
theories/RoomSpec.v
theories/RoomProofs.v
theories/RoomProps.v
theories/PolyRoomModel.v
theories/PolyRoomSpec.v
theories/PolyRoomProofs.v
theories/PolyRoomProps.v
theories/BufferModel.v
theories/BufferSpec.v
theories/BufferProofs.v
theories/BufferProps.v
theories/LmsModel.v
theories/LmsSpec.v
theories/LmsProofs.v
theories/LmsProps.v
theories/Sum.v
theories/RlsModel.v
theories/RlsSpec.v
theories/RlsProofs.v
theories/RlsProps.v
theories/Cpx.v
theories/DftModel.v
theories/DftProofs.v
theories/ToepModel.v
theories/ToepSpec.v
theories/ToepProofs.v
theories/ToepProps.v
theories/StftModel.v
theories/StftSpec.v
theories/StftProofs.v
theories/StftProps.v
theories/ParamModel.v
theories/ParamProofs.v
theories/ParamProps.v
theories/BandsModel.v
theories/BandsProps.v
theories/AntoniProofs.v
theories/WaveletProofs.v
theories/AntoniProps.v
theories/ReverbModel.v
theories/ReverbProps.v
theories/SyncModel.v
theories/UtilModel.v
theories/UtilProps.v
theories/FracProps.v
theories/LevinsonProps.v
theories/CorrProps.v
theories/LpcProps.v
theories/SyncProps.v
theories/WindowModel.v
theories/WindowProps.v
theories/GridModel.v
theories/GridProps.v
theories/SphereModel.v
theories/SphereProps.v
theories/ArrayModel.v
theories/ArrayProps.v
theories/ArrayGeomProps.v
theories/BeamModel.v
theories/BeamMat.v
theories/BeamProps.v
theories/BeamTdProps.v
theories/DatasetModel.v
theories/DatasetProps.v
theories/DirectModel.v
theories/RotationProps.v
theories/Integral.v
theories/CardioidProps.v
theories/RandomModel.v
theories/RandomProps.v
theories/RtModel.v
theories/RtSeqProps.v
theories/RtProps.v
theories/SourceModel.v
theories/SourceProps.v
theories/SourceRirProps.v
theories/ModeModel.v
theories/ModeProps.v
theories/DoaModel.v
theories/SrpProps.v
theories/MusicProps.v
theories/BinProps.v
theories/InsideModel.v
theories/InsideSpec.v
theories/InsideProofs.v
theories/InsideProps.v
theories/TheoryModel.v
theories/TheoryProps.v
theories/MeasureModel.v
theories/MeasureSpec.v
theories/MeasureProofs.v
theories/MeasureProps.v
theories/IsmDirModel.v
theories/IsmDirSpec.v
theories/IsmDirProofs.v
theories/IsmDirProps.v
theories/BackModel.v
theories/BackProps.v
theories/AuxivaModel.v
theories/AuxivaSpec.v
theories/AuxivaProofs.v
theories/DetProofs.v
theories/AuxivaProps.v
theories/IlrmaModel.v
theories/IlrmaSpec.v
theories/IlrmaProofs.v
theories/IlrmaProps.v
theories/FmnmfModel.v
theories/FmnmfSpec.v
theories/FmnmfProofs.v
theories/FmnmfProps.v
theories/DenoiseModel.v
theories/DenoiseSpec.v
theories/DenoiseProofs.v
theories/DenoiseProps.v
theories/WienerProofs.v
theories/WienerProps.v
theories/SubspaceModel.v
theories/SubspaceSpec.v
theories/SubspaceProofs.v
theories/SubspaceProps.v
theories/HmmModel.v
theories/HmmSpec.v
theories/HmmProofs.v
theories/HmmEm.v
theories/HmmFit.v
theories/HmmTrain.v
theories/HmmProps.v
theories/HmmCases.v
theories/GlModel.v
theories/GlSpec.v
theories/GlProofs.v
theories/GlRun.v
theories/GlProps.v
theories/PcModel.v
theories/PcProofs.v
theories/PcProps.v
theories/MdsModel.v
theories/MdsProofs.v
theories/MdsProps.v
theories/LocModel.v
theories/LocProofs.v
theories/LocProps.v
theories/SubLmsModel.v
theories/SubLmsProps.v
theories/MedModel.v
theories/MedProofs.v
theories/MedProps.v
theories/EchoModel.v
theories/EchoProps.v
theories/MelModel.v
theories/MelProps.v
theories/PronyModel.v
theories/PronyProps.v
theories/MinphaseModel.v
theories/MinphaseProps.v
theories/MeritModel.v
theories/MeritProps.v
theories/RegridModel.v
theories/RegridProps.v
theories/AreaModel.v
theories/AreaProps.v
theories/HarmModel.v
theories/HarmProps.v
theories/InterpModel.v
theories/InterpProps.v
theories/MeasuredModel.v
theories/MeasuredProps.v
theories/DensityModel.v
theories/DensityProps.v
theories/HistModel.v
theories/HistProps.v
theories/TriniModel.v
theories/TriniProps.v
theories/SparseModel.v
theories/SparseProps.v
theories/AnechoModel.v
theories/AnechoProps.v
theories/ConvexModel.v
theories/ConvexProps.v
theories/SweepModel.v
theories/SweepProps.v
theories/DeconvModel.v
theories/DeconvProps.v
theories/RtOptModel.v
theories/RtOptProps.v
theories/CssmModel.v
theories/CssmProps.v
theories/TopsModel.v
theories/TopsProps.v
theories/FridaModel.v
theories/FridaProofs.v
theories/FridaProps.v
theories/RtRoomModel.v
theories/RtRoomProps.v
theories/StftMultiModel.v
theories/StftMultiProps.v
theories/GaussModel.v
theories/GaussSpec.v
theories/GaussProofs.v
theories/GaussTrain.v
theories/GaussProps.v
theories/SynthModel.v
theories/SynthProps.v
theories/SynthRirProps.v
theories/NoisyModel.v
theories/NoisyProps.v
theories/SofaModel.v
theories/SofaProps.v
theories/FridaImgModel.v
theories/FridaImgProps.v
theories/PutnamModel.v
theories/PutnamProps.v
theories/AuxEigModel.v
theories/AuxEigProps.v
theories/FridaAmpModel.v
theories/FridaAmpProps.v
theories/ThreadsModel.v
theories/ThreadsProps.v
theories/AirModel.v
theories/AirProps.v
theories/NamesModel.v
theories/NamesProps.v
theories/FridaRawModel.v
theories/FridaRawProps.v
