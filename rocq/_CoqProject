-Q theories Verif
theories/AccModel.v
theories/AccProofs.v
theories/AccProofs2.v
theories/AccProofs3.v
theories/AccProofs4.v
theories/AccProofs5.v
theories/AccProps.v
theories/AccSpec.v
theories/AdvModel.v
theories/AdvProofs.v
theories/AdvProps.v
theories/AdvSpec.v
theories/AllocModel.v
theories/AllocProofs.v
theories/AllocProofs2.v
theories/AllocProofs3.v
theories/AllocProofs4.v
theories/AllocProofs5.v
theories/AllocProofs6.v
theories/AllocProofs7.v
theories/AllocProofs8.v
theories/AllocProps.v
theories/AllocSpec.v
theories/Arith16Model.v
theories/Arith16Proofs.v
theories/Arith16Proofs2.v
theories/Arith16Proofs3.v
theories/Arith16Proofs4.v
theories/Arith16Props.v
theories/Arith16Spec.v
theories/AttnModel.v
theories/AttnProofs.v
theories/AttnProofs2.v
theories/AttnProps.v
theories/AttnSpec.v
theories/AutogradModel.v
theories/AutogradProofs.v
theories/AutogradProofs2.v
theories/AutogradProofs3.v
theories/AutogradProps.v
theories/AutogradSpec.v
theories/BcastModel.v
theories/BcastProofs.v
theories/BcastProofs2.v
theories/BcastProps.v
theories/BcastSpec.v
theories/BufModel.v
theories/BufProofs.v
theories/CastModel.v
theories/CastProofs.v
theories/CastProofs2.v
theories/CastProps.v
theories/CastSpec.v
theories/CmpModel.v
theories/CmpProofs.v
theories/CmpProps.v
theories/CmpSpec.v
theories/CollModel.v
theories/CollProofs.v
theories/CollProps.v
theories/CollSpec.v
theories/CommModel.v
theories/CommProofs.v
theories/CommProps.v
theories/CommSpec.v
theories/CowModel.v
theories/CowProofs.v
theories/CowProps.v
theories/CowSpec.v
theories/CudaExtremeModel.v
theories/CudaExtremeProofs.v
theories/CudaExtremeProofs2.v
theories/CudaExtremeProofs3.v
theories/CudaExtremeProofs4.v
theories/CudaExtremeProofs5.v
theories/CudaExtremeProps.v
theories/CudaExtremeSpec.v
theories/CudaFillModel.v
theories/CudaFillProofs.v
theories/CudaFillProps.v
theories/CudaItems.v
theories/CudaLineModel.v
theories/CudaLineProofs.v
theories/CudaLineProofs2.v
theories/CudaLineProofs3.v
theories/CudaLineProps.v
theories/CudaLineSpec.v
theories/CudaLossModel.v
theories/CudaLossProofs.v
theories/CudaLossProofs2.v
theories/CudaLossProofs3.v
theories/CudaLossProps.v
theories/CudaLossSpec.v
theories/CudaMatmulModel.v
theories/CudaMatmulProofs.v
theories/CudaMatmulProofs2.v
theories/CudaMatmulProps.v
theories/CudaMeanModel.v
theories/CudaMeanProofs.v
theories/CudaMeanProofs2.v
theories/CudaMeanProofs3.v
theories/CudaMeanProps.v
theories/CudaModel.v
theories/CudaMoveModel.v
theories/CudaMoveProofs.v
theories/CudaMoveProofs2.v
theories/CudaMoveProofs3.v
theories/CudaMoveProofs4.v
theories/CudaMoveProofs5.v
theories/CudaMoveProofs6.v
theories/CudaMoveProps.v
theories/CudaMultiModel.v
theories/CudaMultiProofs.v
theories/CudaMultiProofs2.v
theories/CudaMultiProofs3.v
theories/CudaMultiProofs4.v
theories/CudaMultiProps.v
theories/CudaMultiSpec.v
theories/CudaNormProofs.v
theories/CudaNormProofs2.v
theories/CudaNormProps.v
theories/CudaNormSpec.v
theories/CudaProofs.v
theories/CudaProps.v
theories/CudaReduceGroup.v
theories/CudaReduceModel.v
theories/CudaReduceMulti.v
theories/CudaReduceProofs.v
theories/CudaReduceProofs2.v
theories/CudaReduceProofs3.v
theories/CudaReduceProofs4.v
theories/CudaReduceProps.v
theories/CudaReduceRaces.v
theories/CudaReduceSpec.v
theories/CudaRopeModel.v
theories/CudaRopeProofs.v
theories/CudaRopeProps.v
theories/CudaRopeSpec.v
theories/CudaSampleModel.v
theories/CudaSampleProofs.v
theories/CudaSampleProofs2.v
theories/CudaSampleProps.v
theories/CudaSampleSpec.v
theories/CudaSpec.v
theories/CudaTile.v
theories/CudaWindowModel.v
theories/CudaWindowProofs.v
theories/CudaWindowProps.v
theories/CutModel.v
theories/CutProofs.v
theories/CutProofs2.v
theories/CutProofs3.v
theories/CutProps.v
theories/CutSpec.v
theories/DataModel.v
theories/DataProofs.v
theories/DataProofs2.v
theories/DataProps.v
theories/DataSpec.v
theories/DdpModel.v
theories/DdpProofs.v
theories/DdpProofs2.v
theories/DdpProps.v
theories/DdpSpec.v
theories/DispatchModel.v
theories/DispatchProps.v
theories/DropModel.v
theories/DropProofs.v
theories/DropProps.v
theories/DropSpec.v
theories/FileModel.v
theories/FileProofs.v
theories/FileProofs2.v
theories/FileProps.v
theories/FileSpec.v
theories/FillModel.v
theories/FillProps.v
theories/FloatModel.v
theories/FloatProofs.v
theories/FloatProofs2.v
theories/FloatProofs3.v
theories/FloatProofs4.v
theories/FloatProps.v
theories/FloatSpec.v
theories/FsoftModel.v
theories/FsoftProofs.v
theories/FsoftProofs2.v
theories/FsoftProofs3.v
theories/FsoftProofs4.v
theories/FsoftProofs5.v
theories/FsoftProofs6.v
theories/FsoftProofs7.v
theories/FsoftProps.v
theories/FsoftSpec.v
theories/FsoftSpec2.v
theories/FusedModel.v
theories/FusedProofs.v
theories/FusedProps.v
theories/GpuBlock.v
theories/GpuHalves.v
theories/GpuInsert.v
theories/GpuLemmas.v
theories/GpuLines.v
theories/GpuModel.v
theories/GpuOrder.v
theories/GpuOwn.v
theories/GpuProofs.v
theories/GpuSpec.v
theories/GpuWarp.v
theories/GradModel.v
theories/GradProofs.v
theories/GradProofs2.v
theories/GradProps.v
theories/GradSpec.v
theories/IndexModel.v
theories/IndexProofs.v
theories/IndexProofs2.v
theories/IndexProps.v
theories/IndexSpec.v
theories/InitModel.v
theories/InitProofs.v
theories/InitProps.v
theories/InitSpec.v
theories/LifeModel.v
theories/LifeProofs.v
theories/LifeProofs2.v
theories/LifeProofs3.v
theories/LifeProofs4.v
theories/LifeProps.v
theories/LifeSpec.v
theories/LinalgModel.v
theories/LinalgProofs.v
theories/LinalgProofs2.v
theories/LinalgProofs3.v
theories/LinalgProofs4.v
theories/LinalgProofs5.v
theories/LinalgProps.v
theories/LinalgSpec.v
theories/LineModel.v
theories/LineProofs.v
theories/LinearModel.v
theories/LinearProofs.v
theories/LinearProps.v
theories/LinearSpec.v
theories/LossModel.v
theories/LossProofs.v
theories/LossProps.v
theories/LossSpec.v
theories/MaskModel.v
theories/MaskProofs.v
theories/MaskProps.v
theories/MnistModel.v
theories/MnistProofs.v
theories/MnistProps.v
theories/MnistSpec.v
theories/ModuleModel.v
theories/ModuleProofs.v
theories/ModuleProps.v
theories/ModuleSpec.v
theories/MultiModel.v
theories/MultiProofs.v
theories/MultiProofs2.v
theories/MultiProps.v
theories/MultiSpec.v
theories/NetLaw.v
theories/NetModel.v
theories/NetOps.v
theories/NetOps2.v
theories/NetOps3.v
theories/NetOps4.v
theories/NetProofs.v
theories/NetProofs2.v
theories/NetProofs3.v
theories/NetProofs4.v
theories/NetProofs5.v
theories/NetProofs6.v
theories/NetProofs7.v
theories/NetProps.v
theories/NetSpec.v
theories/NormModel.v
theories/NormProofs.v
theories/NormProps.v
theories/NormSpec.v
theories/OptimModel.v
theories/OptimProofs.v
theories/OptimProofs2.v
theories/OptimProps.v
theories/OptimSpec.v
theories/PermModel.v
theories/PermProofs.v
theories/PermProofs2.v
theories/PermProps.v
theories/PermSpec.v
theories/PgModel.v
theories/PgProofs.v
theories/PgProps.v
theories/PgSpec.v
theories/PrintModel.v
theories/PrintProofs.v
theories/PrintProofs2.v
theories/PrintProofs3.v
theories/PrintProofs4.v
theories/PrintProps.v
theories/PrintSpec.v
theories/PrintSpec2.v
theories/PrintSpec3.v
theories/ProgModel.v
theories/ProgProofs.v
theories/ProgProofs2.v
theories/ProgProofs3.v
theories/ProgProofs4.v
theories/ProgProofs5.v
theories/ProgProofs6.v
theories/ProgProofs7.v
theories/ProgProps.v
theories/ProgSpec.v
theories/RandModel.v
theories/RandProps.v
theories/ReduceModel.v
theories/ReduceProofs.v
theories/ReduceProofs2.v
theories/ReduceProps.v
theories/ReduceSpec.v
theories/ReducerModel.v
theories/ReducerProofs.v
theories/ReducerProofs2.v
theories/ReducerProofs3.v
theories/ReducerProps.v
theories/ReducerSpec.v
theories/RopeModel.v
theories/RopeProofs.v
theories/RopeProps.v
theories/RopeSpec.v
theories/SVecModel.v
theories/SVecProofs.v
theories/SVecProofs2.v
theories/SVecProps.v
theories/SVecSpec.v
theories/SampleModel.v
theories/SampleProofs.v
theories/SampleProps.v
theories/SampleSpec.v
theories/SerialModel.v
theories/SerialProofs.v
theories/SerialProofs2.v
theories/SerialProps.v
theories/SerialSpec.v
theories/ShapeModel.v
theories/ShapeProofs.v
theories/ShapeProps.v
theories/ShapeSpec.v
theories/SoftmaxModel.v
theories/SoftmaxProofs.v
theories/SoftmaxProofs2.v
theories/SoftmaxProps.v
theories/SoftmaxSpec.v
theories/StepModel.v
theories/StepProofs.v
theories/StepProps.v
theories/StepSpec.v
theories/StoreModel.v
theories/StoreProofs.v
theories/StoreProofs2.v
theories/StoreProofs3.v
theories/StoreProps.v
theories/StoreSpec.v
theories/StrStoreModel.v
theories/StrStoreProofs.v
theories/StrStoreProps.v
theories/StrStoreSpec.v
theories/StreamDdpModel.v
theories/StreamDdpProofs.v
theories/StreamDdpSpec.v
theories/StreamModel.v
theories/StreamProofs.v
theories/StreamProofs2.v
theories/StreamProofs3.v
theories/StreamProofs4.v
theories/StreamProofs5.v
theories/StreamProofs6.v
theories/StreamProofs7.v
theories/StreamProps.v
theories/StreamSpec.v
theories/TcpLifeModel.v
theories/TcpLifeProofs.v
theories/TcpLifeProofs2.v
theories/TcpLifeProps.v
theories/TcpLifeSpec.v
theories/TensorLemmas.v
theories/TensorModel.v
theories/TensorSpec.v
theories/TypedModel.v
theories/TypedProofs.v
theories/TypedProps.v
theories/TypedSpec.v
theories/WireModel.v
theories/WireProofs.v
theories/WireProps.v
theories/WireSpec.v
theories/WorkModel.v
theories/WorkProofs.v
theories/WorkProps.v
