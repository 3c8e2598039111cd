-Q theories Verif
theories/AngleHessProofs.v
theories/AngleModel.v
theories/AngleProofs.v
theories/AngleProps.v
theories/AngleRefProofs.v
theories/AngleSpec.v
theories/AssemblyModel.v
theories/AssemblyProofs.v
theories/AssemblyProps.v
theories/AssemblySpec.v
theories/AssistModel.v
theories/AssistProps.v
theories/BasisJacModel.v
theories/BasisJacProofs.v
theories/BasisJacProps.v
theories/BasisJacSpec.v
theories/BuildModel.v
theories/BuildProblemProofs.v
theories/BuildProofs.v
theories/BuildProps.v
theories/BuildSetupProofs.v
theories/BuildSpec.v
theories/Calc.v
theories/CombineModel.v
theories/CombineProofs.v
theories/CombineProps.v
theories/CombineSpec.v
theories/ContactAsmModel.v
theories/ContactAsmProofs.v
theories/ContactAsmProps.v
theories/ContactAsmSpec.v
theories/ContactDerivModel.v
theories/ContactDerivProofs.v
theories/ContactDerivProps.v
theories/ContactDerivRowProofs.v
theories/ContactDerivSpec.v
theories/ContactHessModel.v
theories/ContactHessProofs.v
theories/ContactHessProps.v
theories/ContactHessSpec.v
theories/ContactJacModel.v
theories/ContactJacProofs.v
theories/ContactJacProps.v
theories/ContactJacSpec.v
theories/ContactMapModel.v
theories/ContactMapProofs.v
theories/ContactMapProps.v
theories/ContactMapSpec.v
theories/ContactMixedProofs.v
theories/ContactModel.v
theories/ContactMoveProofs.v
theories/ContactProofs.v
theories/ContactProps.v
theories/ContactRowProofs.v
theories/ContactSpec.v
theories/ConvergeModel.v
theories/ConvergeProofs.v
theories/ConvergeProps.v
theories/ConvergeSpec.v
theories/DescentEx.v
theories/DescentModel.v
theories/DescentProofs.v
theories/DescentProps.v
theories/Dual.v
theories/ElasticHessProofs.v
theories/ElasticMeshProofs.v
theories/ElasticModel.v
theories/ElasticProofs.v
theories/ElasticProps.v
theories/ElasticSpec.v
theories/FieldAvgProofs.v
theories/FieldDerivProofs.v
theories/FieldModel.v
theories/FieldProofs.v
theories/FieldProps.v
theories/FieldSpec.v
theories/FricActProofs.v
theories/FricAlgProofs.v
theories/FricAsmModel.v
theories/FricAsmProps.v
theories/FricAsmSpec.v
theories/FricCurveProofs.v
theories/FricDerivProps.v
theories/FricDerivSpec.v
theories/FricEnergyProofs.v
theories/FricEnergyProps.v
theories/FricExistsProofs.v
theories/FricForceSpec.v
theories/FricFormProofs.v
theories/FricJacProofs.v
theories/FricLayoutProofs.v
theories/FricLayoutProps.v
theories/FricMoveProofs.v
theories/FricProblemModel.v
theories/FricProblemProofs.v
theories/FricProblemProps.v
theories/FricProblemSpec.v
theories/FricStateProofs.v
theories/FricTotalProofs.v
theories/FrictionModel.v
theories/FrictionProofs.v
theories/FrictionProps.v
theories/FrictionSpec.v
theories/HessMixProofs.v
theories/HessModel.v
theories/HessProofs.v
theories/HessProps.v
theories/HessSpec.v
theories/JetProofs.v
theories/JointHessProofs.v
theories/KernelModel.v
theories/KernelProofs.v
theories/KernelProps.v
theories/KernelSpec.v
theories/LinSolveModel.v
theories/LinSolveProofs.v
theories/LinSolveProps.v
theories/LinSolveSpec.v
theories/MassModel.v
theories/MassProofs.v
theories/MassProps.v
theories/MassSpec.v
theories/Mat3.v
theories/McpModel.v
theories/McpProofs.v
theories/McpProps.v
theories/McpSpec.v
theories/MixedProofs.v
theories/NeighborModel.v
theories/NeighborProofs.v
theories/NeighborProps.v
theories/NeighborSpec.v
theories/NewtonMeritProofs.v
theories/NewtonModel.v
theories/NewtonProofs.v
theories/NewtonProps.v
theories/NewtonSpec.v
theories/PrecondFricProofs.v
theories/PrecondFricProps.v
theories/PrecondModel.v
theories/PrecondProofs.v
theories/PrecondProps.v
theories/ProblemContactProofs.v
theories/ProblemDerivProofs.v
theories/ProblemDerivProps.v
theories/ProblemDerivSpec.v
theories/ProblemEnergyProofs.v
theories/ProblemListProofs.v
theories/ProblemMatrixProofs.v
theories/ProblemModel.v
theories/ProblemProofs.v
theories/ProblemProps.v
theories/ProblemSpec.v
theories/ProblemStaticProps.v
theories/ProductModel.v
theories/ProductProofs.v
theories/ProductProps.v
theories/ProjectExactProofs.v
theories/ProjectModel.v
theories/ProjectProofs.v
theories/ProjectProps.v
theories/ProjectSpec.v
theories/RList.v
theories/SceneModel.v
theories/SceneProofs.v
theories/SceneProps.v
theories/SceneSpec.v
theories/SeqModel.v
theories/SeqProofs.v
theories/SeqProps.v
theories/SetupProps.v
theories/ShellBalanceProofs.v
theories/ShellHessProofs.v
theories/ShellMeshProofs.v
theories/ShellModel.v
theories/ShellProofs.v
theories/ShellProps.v
theories/ShellSpec.v
theories/StateModel.v
theories/StateProofs.v
theories/StateProps.v
theories/StateSpec.v
theories/StepModel.v
theories/StepOutcomeProofs.v
theories/StepProofs.v
theories/StepProps.v
theories/StepSpec.v
theories/SurfBuildModel.v
theories/SurfBuildProofs.v
theories/SurfBuildProps.v
theories/SurfBuildSpec.v
theories/SurfHessCodeProofs.v
theories/SurfHessModel.v
theories/SurfHessProofs.v
theories/SurfHessProps.v
theories/SurfHessSpec.v
theories/SurfJacModel.v
theories/SurfJacProofs.v
theories/SurfJacProps.v
theories/SurfJacSpec.v
theories/TimeModel.v
theories/TimeProofs.v
theories/TimeProps.v
theories/TimeSpec.v
theories/TopoElemProofs.v
theories/TopoModel.v
theories/TopoProofs.v
theories/TopoProps.v
theories/TopoRestProofs.v
theories/TopoSpec.v
theories/TopoWeightProofs.v
theories/UpdateProps.v
theories/UtilModel.v
theories/UtilProofs.v
theories/UtilProps.v
theories/UtilSpec.v
theories/Vec3.v
theories/VolumeModel.v
theories/VolumeProofs.v
theories/VolumeProps.v
theories/VolumeSpec.v
