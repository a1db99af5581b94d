-Q theories Verif
theories/Base.v
theories/BaseFacts.v
theories/M_Quat.v
theories/S_Quat.v
theories/P_Quat.v
theories/T_Quat.v
theories/M_RFun.v
theories/S_RFun.v
theories/P_RFun1.v
theories/P_Vec.v
theories/P_RFun2.v
theories/T_RFun.v
theories/M_Domain.v
theories/S_Domain.v
theories/P_Domain1.v
theories/P_Domain2.v
theories/P_Domain3.v
theories/P_Domain4.v
theories/T_Domain.v
theories/M_Integrate.v
theories/S_Integrate.v
theories/P_Integrate1.v
theories/P_Integrate2.v
theories/P_Integrate3.v
theories/T_Integrate.v
theories/S_IntErr.v
theories/P_Integrate4.v
theories/T_IntErr.v
theories/M_Tree.v
theories/M_Ode.v
theories/S_Ode.v
theories/P_Tree.v
theories/P_Ode.v
theories/T_Ode.v
theories/S_OdeErr.v
theories/P_Ode2.v
theories/T_OdeErr.v
theories/S_Ode4.v
theories/P_Ode4.v
theories/T_Ode4.v
theories/M_Spline.v
theories/S_Spline.v
theories/P_Spline1.v
theories/P_Spline2.v
theories/P_Spline3.v
theories/T_Spline.v
theories/M_Dtype.v
theories/S_Dtype.v
theories/P_Pi.v
theories/P_Dtype.v
theories/T_Dtype.v
theories/M_XR.v
theories/M_Tr.v
theories/S_Tr.v
theories/P_Tr1.v
theories/P_Tr2.v
theories/P_Tr3.v
theories/P_Tr4.v
theories/P_Tr5.v
theories/P_Tr6.v
theories/P_Tr7.v
theories/T_Tr.v
theories/T_Tr2.v
theories/M_Key.v
theories/M_Opt.v
theories/S_Opt.v
theories/P_Opt.v
theories/T_Opt.v
theories/M_Sampling.v
theories/S_Sampling.v
theories/P_Sampling.v
theories/T_Sampling.v
theories/S_Sampling2.v
theories/P_Sampling2.v
theories/T_Sampling2.v
theories/M_Tensor.v
theories/M_Calc.v
theories/M_Utils.v
theories/S_Utils.v
theories/P_Utils.v
theories/T_Utils.v
theories/S_Calc.v
theories/P_AD.v
theories/P_Calc.v
theories/P_Calc2.v
theories/T_Calc.v
theories/M_Model.v
theories/S_Model.v
theories/P_Model.v
theories/P_Model2.v
theories/T_Model.v
theories/M_Surface.v
theories/S_Surface.v
theories/P_Surface1.v
theories/P_Surface2.v
theories/P_Surface3.v
theories/P_Surface4.v
theories/P_Surface5.v
theories/T_Surface.v
theories/M_Mumag.v
theories/S_Mumag.v
theories/P_Mumag1.v
theories/P_Mumag2.v
theories/P_Mumag3.v
theories/P_Mumag4.v
theories/P_Mumag5.v
theories/P_Mumag6.v
theories/T_Mumag.v
theories/M_Stray.v
theories/S_Stray.v
theories/P_Stray1.v
theories/P_Stray2.v
theories/P_Stray3.v
theories/T_Stray.v
theories/M_Batch.v
theories/S_Batch.v
theories/P_Batch.v
theories/P_Batch2.v
theories/T_Batch.v
theories/M_Jac.v
theories/S_Jac.v
theories/P_Jac.v
theories/P_Jac2.v
theories/T_Jac.v
theories/S_IntOrder.v
theories/P_IntOrder.v
theories/S_SurfErr.v
theories/P_SurfErr.v
theories/P_SurfErr2.v
theories/P_SurfErr3.v
theories/P_SurfErr4.v
theories/T_IntOrder.v
theories/T_SurfErr.v
theories/M_CalcTree.v
theories/S_CalcTree.v
theories/P_CalcTree.v
theories/T_CalcTree.v
theories/M_CalcTree2.v
theories/S_CalcTree2.v
theories/P_CalcTree2.v
theories/T_CalcTree2.v
theories/M_HvpTree.v
theories/S_HvpTree.v
theories/P_HvpTree.v
theories/T_HvpTree.v
theories/M_TrFun.v
theories/S_TrFun.v
theories/P_TrFun.v
theories/P_TrFun2.v
theories/P_TrFun3.v
theories/T_TrFun.v
theories/S_TrFd.v
theories/P_TrFd.v
theories/P_TrFd2.v
theories/P_TrFd3.v
theories/T_TrFd.v
theories/M_Solid.v
theories/S_Solid.v
theories/P_Solid1.v
theories/P_Solid2.v
theories/P_Solid3.v
theories/P_Solid4.v
theories/P_Solid5.v
theories/P_Solid6.v
theories/T_Solid.v
theories/M_Notebook.v
theories/S_Notebook.v
theories/P_Notebook1.v
theories/P_Notebook2.v
theories/P_Notebook3.v
theories/T_Notebook.v
theories/M_Float.v
theories/S_Float.v
theories/P_Float.v
theories/P_Float2.v
theories/P_Float3.v
theories/P_Float4.v
theories/T_Float.v
theories/M_TrRun.v
theories/S_TrRun.v
theories/P_TrRun.v
theories/T_TrRun.v
theories/M_OptAxis.v
theories/P_OptAxis.v
theories/T_OptAxis.v
theories/M_Energy.v
theories/S_Energy.v
theories/P_Energy.v
theories/P_Energy2.v
theories/P_Energy3.v
theories/P_Energy4.v
theories/T_Energy.v
theories/M_SolidBC.v
theories/S_SolidBC.v
theories/P_SolidC1.v
theories/P_SolidC2.v
theories/P_SolidC3.v
theories/P_SolidC4.v
theories/T_SolidBC.v
theories/M_RBatch.v
theories/S_RBatch.v
theories/P_RBatch1.v
theories/P_RBatch2.v
theories/P_RBatch3.v
theories/T_RBatch.v
theories/S_IntPolar.v
theories/P_IntPolar.v
theories/T_IntPolar.v
theories/M_FloatBox.v
theories/S_FloatBox.v
theories/P_FloatBox.v
theories/T_FloatBox.v
theories/M_FloatAdf.v
theories/S_FloatAdf.v
theories/P_FloatAdf.v
theories/T_FloatAdf.v
theories/M_SplineAD.v
theories/S_SplineAD.v
theories/P_SplineAD1.v
theories/P_SplineAD2.v
theories/T_SplineAD.v
theories/M_RDual.v
theories/S_RDual.v
theories/P_RDual1.v
theories/P_RDual2.v
theories/P_RDual3.v
theories/P_RDual4.v
theories/P_RDual5.v
theories/P_RDual6.v
theories/T_RDual.v
theories/M_IntArgs.v
theories/S_IntArgs.v
theories/P_IntArgs.v
theories/T_IntArgs.v
theories/M_OdeAD.v
theories/S_OdeAD.v
theories/P_OdeAD.v
theories/P_OdeAD2.v
theories/T_OdeAD.v
theories/M_OdeADt.v
theories/S_OdeADt.v
theories/P_OdeADt.v
theories/T_OdeADt.v
theories/M_OdeADp.v
theories/S_OdeADp.v
theories/P_OdeADp.v
theories/T_OdeADp.v
theories/P_Args.v
theories/T_Args.v
theories/T_Rest.v
