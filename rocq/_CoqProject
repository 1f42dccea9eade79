-Q theories Verif
theories/Outcome.v
theories/FB_Model.v
theories/FB_Time.v
theories/FB_Trace.v
theories/FB_Loops.v
theories/FB_Basic.v
theories/FB_Order.v
theories/FB_Replay.v
theories/FB_Spec.v
theories/FB_LogRun.v
theories/FB_Inv.v
theories/FB_Single.v
theories/FB_Queue.v
theories/FB_Fresh.v
theories/Props_FilterBase.v
theories/Props_Rewind.v
theories/Props_Queue.v
theories/Props_Models.v
theories/FloatTime.v
theories/Props_FloatTime.v
theories/ActiveSets.v
theories/Props_ActiveSets.v
theories/Subset.v
theories/Props_Subset.v
theories/McRing.v
theories/LinAlg.v
theories/KF_Algebra.v
theories/KF_Model.v
theories/FB_Alg.v
theories/KF_Filter.v
theories/Props_KF.v
theories/Props_KFRun.v
theories/UKF_Model.v
theories/UKF_Chol.v
theories/UKF_Lemmas.v
theories/UKF_Algebra.v
theories/Props_UKF.v
theories/Props_UKFRun.v
theories/Props_UKFVS.v
theories/VS_Lemmas.v
theories/Props_VS.v
theories/Props_VSU.v
theories/Angles.v
theories/Props_Angles.v
theories/AngleFloat.v
theories/Props_AngleFloat.v
theories/Geo.v
theories/Integration.v
theories/Props_Integration.v
theories/Transform.v
theories/Props_Transform.v
theories/Props_Imu.v
theories/SixD.v
theories/Props_SixD.v
theories/Props_SixDArith.v
theories/Props_SixDMeas.v
theories/Spectral.v
theories/QuatMean.v
theories/Props_QuatMean.v
theories/Plot.v
theories/Props_Plot.v
theories/Props_SixDJac.v
theories/RealField.v
theories/S6_Filter.v
theories/S6_Real.v
theories/Props_S6Filter.v
theories/Props_S6UKF.v
theories/Props_SixDGravity.v
theories/Planar.v
theories/Props_Planar.v
theories/AngleDiff.v
theories/Props_AngleDiff.v
theories/KF_Float.v
theories/Props_KFFloat.v
theories/FB_Sim.v
theories/FB_AlgSim.v
theories/Props_Sim.v
theories/Props_SimRun.v
theories/Props_SimRunU.v
theories/Props_Mono.v
theories/LeastSquares.v
theories/Props_LS.v
theories/Csv.v
theories/Props_Csv.v
theories/Example6D.v
theories/Props_ExampleTime.v
theories/Props_Example6D.v
theories/Props_Example.v
theories/FB_Shift.v
theories/Props_Shift.v
theories/FB_Follow.v
theories/FB_AlgFollow.v
theories/Props_Exact.v
theories/Props_Share.v
theories/FB_AlgForget.v
theories/Props_ShareS6.v
theories/MatFloat.v
theories/Props_MatFloat.v
theories/Props_MatFloatC.v
theories/VSFloat.v
theories/Props_VSFloat.v
theories/UKFFloat.v
theories/Props_UKFFloat.v
theories/Props_UKFManifold.v
theories/Props_S6UKFCorrect.v
theories/Props_ShareS6U.v
theories/LltFloat.v
theories/Props_Llt.v
theories/UKFFloatC.v
theories/Props_UKFFloatC.v
theories/Props_FloatRun.v
theories/LuFloat.v
theories/Props_LuFloat.v
theories/Props_Direct.v
theories/Props_DirectVS.v
