-Q theories Verif
theories/Base/Mx.v
theories/Base/MxDerive.v
theories/Base/Outcome.v
theories/Base/RField.v
theories/Base/RVec.v
theories/Base/Rounding.v
theories/Base/Scalar.v
theories/Core/ActivationModel.v
theories/Core/ActivationProofs.v
theories/Core/ActivationProps.v
theories/Core/CodegenModel.v
theories/Core/CodegenProps.v
theories/Core/DiscretizerModel.v
theories/Core/DiscretizerProps.v
theories/Core/DiscretizerSpec.v
theories/Core/EventModel.v
theories/Core/EventProps.v
theories/Core/FeedbackModel.v
theories/Core/FeedbackProps.v
theories/Core/GridModel.v
theories/Core/GridProofs.v
theories/Core/GridProps.v
theories/Core/InfoModel.v
theories/Core/InfoProofs.v
theories/Core/IntLinModel.v
theories/Core/IntLinProps.v
theories/Core/IntModel.v
theories/Core/IntProps.v
theories/Core/IntSpec.v
theories/Core/InterpModel.v
theories/Core/InterpProofs.v
theories/Core/InterpProps.v
theories/Core/InterpSpec.v
theories/Core/InverseModel.v
theories/Core/InverseProofs.v
theories/Core/InverseProps.v
theories/Core/InverseSpec.v
theories/Core/JitModel.v
theories/Core/LtiModel.v
theories/Core/LtiProofs.v
theories/Core/LtiProps.v
theories/Core/LtiSpec.v
theories/Core/NumDiffModel.v
theories/Core/NumDiffProps.v
theories/Core/PIDModel.v
theories/Core/PIDProofs.v
theories/Core/PIDProps.v
theories/Core/PhaseModel.v
theories/Core/PhaseProofs.v
theories/Core/PhaseProps.v
theories/Core/PlaneModel.v
theories/Core/PlaneProps.v
theories/Core/QuantModel.v
theories/Core/QuantProps.v
theories/Core/SecondOrderModel.v
theories/Core/SecondOrderProps.v
theories/Core/SensModel.v
theories/Core/SensProofs.v
theories/Core/SensProps.v
theories/Core/SwitchedModel.v
theories/Core/SwitchedProps.v
theories/Core/TrajProofs.v
theories/Models/QuadrotorModel.v
theories/Models/QuadrotorProps.v
theories/Models/QuadrotorSpec.v
theories/Optcon/CareModel.v
theories/Optcon/CareProofs.v
theories/Optcon/CareProps.v
theories/Optcon/CareSpec.v
theories/Optcon/CloneProps.v
theories/Optcon/ConstraintADModel.v
theories/Optcon/ConstraintADProps.v
theories/Optcon/ConstraintModel.v
theories/Optcon/ConstraintProofs.v
theories/Optcon/ConstraintProps.v
theories/Optcon/ConstraintSpec.v
theories/Optcon/CostClone.v
theories/Optcon/CostFileModel.v
theories/Optcon/CostFileProps.v
theories/Optcon/CostModel.v
theories/Optcon/CostProofs.v
theories/Optcon/CostProps.v
theories/Optcon/CostSpec.v
theories/Optcon/DmsModel.v
theories/Optcon/DmsProofs.v
theories/Optcon/DmsProps.v
theories/Optcon/DmsSolverModel.v
theories/Optcon/DmsSolverProps.v
theories/Optcon/DmsSpec.v
theories/Optcon/DmsSplineModel.v
theories/Optcon/DmsSplineProps.v
theories/Optcon/FilterModel.v
theories/Optcon/FilterProofs.v
theories/Optcon/FilterProps.v
theories/Optcon/FilterSpec.v
theories/Optcon/FilterUse.v
theories/Optcon/FilterWitness.v
theories/Optcon/FullCostModel.v
theories/Optcon/FullCostProps.v
theories/Optcon/HessianModel.v
theories/Optcon/HessianProps.v
theories/Optcon/HpipmGain.v
theories/Optcon/HpipmModel.v
theories/Optcon/HpipmProofs.v
theories/Optcon/HpipmProps.v
theories/Optcon/HpipmSpec.v
theories/Optcon/LQModel.v
theories/Optcon/LQProofs.v
theories/Optcon/LQProps.v
theories/Optcon/LQSpec.v
theories/Optcon/LqocModel.v
theories/Optcon/LqocProofs.v
theories/Optcon/LqocProps.v
theories/Optcon/LqocSpec.v
theories/Optcon/LqrModel.v
theories/Optcon/LqrProofs.v
theories/Optcon/LqrProps.v
theories/Optcon/LqrSpec.v
theories/Optcon/LsModel.v
theories/Optcon/LsProofs.v
theories/Optcon/LsProps.v
theories/Optcon/LsSpec.v
theories/Optcon/MpLive.v
theories/Optcon/MpModel.v
theories/Optcon/MpOrder.v
theories/Optcon/MpProofs.v
theories/Optcon/MpProps.v
theories/Optcon/MpSpec.v
theories/Optcon/MpcModel.v
theories/Optcon/MpcProofs.v
theories/Optcon/MpcProps.v
theories/Optcon/MpcSpec.v
theories/Optcon/MpcTimeModel.v
theories/Optcon/MpcTimeProofs.v
theories/Optcon/MpcTimeProps.v
theories/Optcon/MpcTimeSpec.v
theories/Optcon/MpcWindowProps.v
theories/Optcon/NlpDisc.v
theories/Optcon/NlpModel.v
theories/Optcon/NlpProofs.v
theories/Optcon/NlpProps.v
theories/Optcon/NlpSpec.v
theories/Optcon/PolicyModel.v
theories/Optcon/PolicyProofs.v
theories/Optcon/PolicyProps.v
theories/Optcon/PolicySpec.v
theories/Optcon/ProcModel.v
theories/Optcon/ProcProps.v
theories/Optcon/RknModel.v
theories/Optcon/RknProps.v
theories/Optcon/RolloutModel.v
theories/Optcon/RolloutProofs.v
theories/Optcon/RolloutProps.v
theories/Optcon/RolloutSpec.v
theories/Optcon/SettingsFileProps.v
theories/Optcon/SettingsModel.v
theories/Optcon/SettingsProofs.v
theories/Optcon/SettingsProps.v
theories/Optcon/SettingsSpec.v
theories/Optcon/ShotModel.v
theories/Optcon/ShotProps.v
theories/Optcon/SnoptModel.v
theories/Optcon/SnoptProps.v
theories/Optcon/SolveModel.v
theories/Optcon/SolveProps.v
theories/Optcon/SolveSpec.v
theories/Optcon/SwitchedConstraintModel.v
theories/Optcon/SwitchedConstraintProps.v
theories/Rbd/ActuatorModel.v
theories/Rbd/ActuatorProps.v
theories/Rbd/ArticulatedProps.v
theories/Rbd/ChainModel.v
theories/Rbd/ChainProofs.v
theories/Rbd/ChainProps.v
theories/Rbd/ContactModel.v
theories/Rbd/ContactProps.v
theories/Rbd/CtrlModel.v
theories/Rbd/CtrlProps.v
theories/Rbd/FixNlocModel.v
theories/Rbd/FixNlocProps.v
theories/Rbd/HyaKinModel.v
theories/Rbd/HyaKinProps.v
theories/Rbd/HyaModel.v
theories/Rbd/HyaProps.v
theories/Rbd/IdCtrlModel.v
theories/Rbd/IdCtrlProps.v
theories/Rbd/IkCostModel.v
theories/Rbd/IkCostProofs.v
theories/Rbd/IkCostProps.v
theories/Rbd/IkModel.v
theories/Rbd/IkProps.v
theories/Rbd/InertiaProps.v
theories/Rbd/JacModel.v
theories/Rbd/JacProps.v
theories/Rbd/JacSingModel.v
theories/Rbd/JacSingProps.v
theories/Rbd/JsimFactor.v
theories/Rbd/JsimModel.v
theories/Rbd/JsimProofs.v
theories/Rbd/JsimProps.v
theories/Rbd/KinModel.v
theories/Rbd/KinProps.v
theories/Rbd/LinModel.v
theories/Rbd/LinProps.v
theories/Rbd/OpJacModel.v
theories/Rbd/OpJacProps.v
theories/Rbd/OpModelModel.v
theories/Rbd/OpModelProps.v
theories/Rbd/PendulumModel.v
theories/Rbd/PendulumProps.v
theories/Rbd/ProjModel.v
theories/Rbd/ProjProps.v
theories/Rbd/SelModel.v
theories/Rbd/SelProps.v
theories/Rbd/SpatialModel.v
theories/Rbd/SpatialProofs.v
theories/Rbd/SpatialProps.v
theories/Rbd/StateModel.v
theories/Rbd/StateProps.v
theories/Rbd/SystemModel.v
theories/Rbd/SystemProps.v
theories/Rbd/TaskTermModel.v
theories/Rbd/TaskTermProps.v
theories/Rbd/TrajGenModel.v
theories/Rbd/TrajGenProofs.v
theories/Rbd/TrajGenProps.v
