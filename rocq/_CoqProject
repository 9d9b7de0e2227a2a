-Q theories Verif
theories/Base.v
theories/AprilGridModel.v
theories/AprilGridSpec.v
theories/AprilGridProofs.v
theories/AprilGridIOModel.v
theories/AprilGridProofs2.v
theories/AprilGridProofs3.v
theories/AprilGridDetectSpec.v
theories/AprilGridProofs4.v
theories/Prop_AprilGrid.v
theories/Prop_AprilGrid2.v
theories/ContainersModel.v
theories/Prop_Containers.v
theories/SolverModel.v
theories/SolverProofs.v
theories/Prop_Solver.v
theories/SolverLsqModel.v
theories/SolverLsqProofs.v
theories/Prop_Solver2.v
theories/GeomModel.v
theories/GeomSpec.v
theories/GeomProofs.v
theories/Prop_Geom.v
theories/Prop_Geom2.v
theories/CamchainModel.v
theories/CamchainSpec.v
theories/Prop_Camchain.v
theories/CalibModel.v
theories/CalibSpec.v
theories/CalibProofs.v
theories/CalibProofs2.v
theories/CalibProofs3.v
theories/CalibProofs4.v
theories/CalibProofs5.v
theories/CalibExample.v
theories/Prop_Calib.v
theories/Prop_Calib2.v
theories/CalibInitModel.v
theories/Prop_CalibInit.v
theories/FloatModel.v
theories/FloatProofs.v
theories/TimeModel.v
theories/TimeProofs.v
theories/TimeProofs2.v
theories/Prop_Time.v
theories/LerpModel.v
theories/LerpSpec.v
theories/LerpProofs.v
theories/Prop_Lerp.v
theories/PosesModel.v
theories/Prop_Poses.v
theories/ImuModel.v
theories/ImuSpec.v
theories/Prop_Imu.v
theories/TextModel.v
theories/TextProofs.v
theories/DataModel.v
theories/DataSpec.v
theories/Prop_Data.v
theories/Prop_Data2.v
theories/Prop_Data3.v
theories/PathModel.v
theories/Prop_Path.v
theories/PackModel.v
theories/Prop_Pack.v
theories/ConfigModel.v
theories/Prop_Config.v
theories/PlanarModel.v
theories/Prop_Planar.v
theories/StatsModel.v
theories/Prop_Stats.v
theories/CameraModel.v
theories/Prop_Camera.v
theories/Prop_Camera2.v
theories/Prop_Undistort.v
theories/MargModel.v
theories/Prop_Marg.v
theories/MargHessModel.v
theories/Prop_MargHess.v
theories/LossModel.v
theories/Prop_Loss.v
theories/NbvModel.v
theories/Prop_Nbv.v
theories/KeypointModel.v
theories/Prop_Keypoint.v
theories/LissajousModel.v
theories/Prop_Lissajous.v
theories/NbtModel.v
theories/Prop_Nbt.v
theories/CalcSpec.v
theories/ResidualModel.v
theories/ResidualProofs.v
theories/Prop_Residual.v
theories/Prop_ResidualPrior.v
theories/InterpModel.v
theories/Prop_Interp.v
theories/CtrajModel.v
theories/CtrajSpec.v
theories/CtrajProofs.v
theories/Prop_Ctraj.v
theories/SimModel.v
theories/Prop_Sim.v
theories/EulerModel.v
theories/Prop_Euler.v
theories/PreintModel.v
theories/PreintSpec.v
theories/PreintProofs.v
theories/PreintProofs2.v
theories/PreintProofs3.v
theories/PreintProofs4.v
theories/Prop_Preint.v
theories/Prop_Preint2.v
theories/Prop_Preint3.v
theories/Prop_Preint4.v
theories/Prop_Undistort2.v
theories/Prop_Preint5.v
theories/ViModel.v
theories/ViSpec.v
theories/ViProofs.v
theories/ViProofs2.v
theories/ViProofs3.v
theories/ViProofs4.v
theories/ViProofs5.v
theories/ViProofs6.v
theories/Prop_Vi.v
theories/Prop_Vi2.v
theories/Prop_Vi3.v
theories/Prop_Vi4.v
theories/Prop_Vi5.v
theories/ViHessModel.v
theories/Prop_Vi6.v
theories/Prop_Vi7.v
theories/SbModel.v
theories/Prop_Sb.v
theories/ViReplayModel.v
theories/Prop_Vi8.v
theories/Prop_Vi9.v
theories/MocapSyncModel.v
theories/Prop_MocapSync.v
theories/MocapModel.v
theories/MocapSpec.v
theories/MocapProofs.v
theories/MocapProofs2.v
theories/MocapProofs3.v
theories/MocapProofs4.v
theories/Prop_Mocap.v
theories/Prop_Mocap2.v
theories/Prop_Mocap3.v
theories/RealInst.v
theories/CovarModel.v
theories/CovarSpec.v
theories/CovarProofs.v
theories/CovarMatModel.v
theories/Prop_Covar.v
theories/Prop_Covar2.v
theories/Prop_Covar3.v
theories/CovarProofs2.v
theories/CovarEx.v
theories/Prop_Covar4.v
theories/Prop_Covar5.v
theories/NbvFindModel.v
theories/NbvFindProofs.v
theories/Prop_NbvFind.v
theories/OutlierModel.v
theories/OutlierProofs.v
theories/Prop_Outlier.v
theories/CamMargModel.v
theories/CamMargSpec.v
theories/CamMargProofs.v
theories/CamMargProofs2.v
theories/CamMargProofs3.v
theories/CamMargEx.v
theories/Prop_CamMarg.v
theories/MotionModel.v
theories/MotionSpec.v
theories/MotionProofs.v
theories/Prop_Motion.v
theories/NbvLoopModel.v
theories/NbvLoopProofs.v
theories/Prop_NbvLoop.v
theories/PoseFileModel.v
theories/PoseFileSpec.v
theories/PoseFileProofs.v
theories/Prop_PoseFile.v
theories/TruncModel.v
theories/Prop_Trunc.v
theories/LoadViewsModel.v
theories/LoadViewsSpec.v
theories/LoadViewsProofs.v
theories/Prop_LoadViews.v
theories/SimGridModel.v
theories/Prop_SimGrid.v
