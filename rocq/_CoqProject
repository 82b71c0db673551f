-Q theories Verif
theories/L_Adaptive.v
theories/L_Adaptive2.v
theories/L_Adaptive3.v
theories/L_Adaptive4.v
theories/L_Adj.v
theories/L_Adj2.v
theories/L_Base.v
theories/L_Conv.v
theories/L_Dtype.v
theories/L_Fixed.v
theories/L_Fixed2.v
theories/L_Float.v
theories/L_Gronwall.v
theories/L_Growth.v
theories/L_Hybrid.v
theories/L_Hybrid2.v
theories/L_Interp.v
theories/L_Inv.v
theories/L_Jagged.v
theories/L_Leap.v
theories/L_Lin.v
theories/L_MS.v
theories/L_Models.v
theories/L_Nan.v
theories/L_Oracle.v
theories/L_Order.v
theories/L_Order2.v
theories/L_Reach.v
theories/L_Rel.v
theories/L_Root.v
theories/L_Round.v
theories/L_Run.v
theories/L_Sde.v
theories/L_Second.v
theories/L_Sens.v
theories/L_SensP.v
theories/L_Sim.v
theories/L_Spline.v
theories/L_Steps.v
theories/L_Steps2.v
theories/L_Tables.v
theories/L_Tangent.v
theories/L_Term.v
theories/L_Trees.v
theories/L_Utils.v
theories/L_Vec.v
theories/M_Attr.v
theories/M_Autograd.v
theories/M_Calls.v
theories/M_Cast.v
theories/M_Constants.v
theories/M_Conv2d.v
theories/M_Core.v
theories/M_Data.v
theories/M_Dict.v
theories/M_Double.v
theories/M_Dtype.v
theories/M_Hyper.v
theories/M_Implicit.v
theories/M_Import.v
theories/M_Interp.v
theories/M_MS.v
theories/M_Models.v
theories/M_Module.v
theories/M_NeuralSde.v
theories/M_Nn.v
theories/M_Odeint.v
theories/M_Plot.v
theories/M_Prom.v
theories/M_Root.v
theories/M_RootLog.v
theories/M_Scalar.v
theories/M_Sde.v
theories/M_Sens.v
theories/M_ShootGrad.v
theories/M_SolversOde.v
theories/M_Spline.v
theories/M_Systems.v
theories/M_Utils.v
theories/M_Warn.v
theories/Num.v
theories/Pf_AdGrad.v
theories/Pf_Adaptive.v
theories/Pf_Attr.v
theories/Pf_Autograd.v
theories/Pf_Back.v
theories/Pf_Basis.v
theories/Pf_Block.v
theories/Pf_CallTimes.v
theories/Pf_Calls.v
theories/Pf_Cast.v
theories/Pf_Causal.v
theories/Pf_Cnf.v
theories/Pf_Conv.v
theories/Pf_Conv2d.v
theories/Pf_Core.v
theories/Pf_Cross.v
theories/Pf_Data.v
theories/Pf_DataNoise.v
theories/Pf_Dense.v
theories/Pf_Descent.v
theories/Pf_Detach.v
theories/Pf_Dict.v
theories/Pf_Diss.v
theories/Pf_Dtype.v
theories/Pf_Event.v
theories/Pf_Fixed.v
theories/Pf_Gal.v
theories/Pf_Grad.v
theories/Pf_GradSum.v
theories/Pf_Helpers.v
theories/Pf_HnnEnergy.v
theories/Pf_HybInv.v
theories/Pf_HybPlain.v
theories/Pf_Hybrid.v
theories/Pf_Hyper.v
theories/Pf_HyperAdj.v
theories/Pf_Implicit.v
theories/Pf_Import.v
theories/Pf_Inv.v
theories/Pf_Jagged.v
theories/Pf_Jump.v
theories/Pf_Land.v
theories/Pf_Leap.v
theories/Pf_LeapAff.v
theories/Pf_LeapGrad.v
theories/Pf_LeapInv.v
theories/Pf_Lin.v
theories/Pf_Loss.v
theories/Pf_MS.v
theories/Pf_Models.v
theories/Pf_Module.v
theories/Pf_Moment.v
theories/Pf_Mono.v
theories/Pf_NaN.v
theories/Pf_NeuralSde.v
theories/Pf_Nn.v
theories/Pf_Oracle.v
theories/Pf_Order.v
theories/Pf_Para.v
theories/Pf_Plot.v
theories/Pf_Prom.v
theories/Pf_Rel.v
theories/Pf_Repeat.v
theories/Pf_Request.v
theories/Pf_Root.v
theories/Pf_RootConv.v
theories/Pf_RootLog.v
theories/Pf_Rotate.v
theories/Pf_Round.v
theories/Pf_RoundRK.v
theories/Pf_Scalar.v
theories/Pf_Scale.v
theories/Pf_Sde.v
theories/Pf_SdeBack.v
theories/Pf_SdeBlock.v
theories/Pf_SdeCausal.v
theories/Pf_SdeConv.v
theories/Pf_SdeDep.v
theories/Pf_SdeGrad.v
theories/Pf_SdeInv.v
theories/Pf_SdeLaws.v
theories/Pf_SdeOrder.v
theories/Pf_SdePerm.v
theories/Pf_SdeRepeat.v
theories/Pf_SdeSuper.v
theories/Pf_Second.v
theories/Pf_Sens.v
theories/Pf_SensP.v
theories/Pf_ShootGrad.v
theories/Pf_ShootInv.v
theories/Pf_Sim.v
theories/Pf_Spline.v
theories/Pf_Steps.v
theories/Pf_Stiff.v
theories/Pf_Super.v
theories/Pf_Symp.v
theories/Pf_Systems.v
theories/Pf_TimeGrad.v
theories/Pf_TimeState.v
theories/Pf_Tol.v
theories/Pf_Unit.v
theories/Pf_Utils.v
theories/Pf_Values.v
theories/Pf_Warn.v
theories/Pf_Weak.v
theories/Prop_AdGrad.v
theories/Prop_Adaptive.v
theories/Prop_Attr.v
theories/Prop_Autograd.v
theories/Prop_Back.v
theories/Prop_Basis.v
theories/Prop_Block.v
theories/Prop_CallTimes.v
theories/Prop_Calls.v
theories/Prop_Cast.v
theories/Prop_Causal.v
theories/Prop_Cnf.v
theories/Prop_Conv.v
theories/Prop_Conv2d.v
theories/Prop_Core.v
theories/Prop_Cross.v
theories/Prop_Data.v
theories/Prop_DataNoise.v
theories/Prop_Dense.v
theories/Prop_Descent.v
theories/Prop_Detach.v
theories/Prop_Dict.v
theories/Prop_Diss.v
theories/Prop_Dtype.v
theories/Prop_Event.v
theories/Prop_Fixed.v
theories/Prop_Gal.v
theories/Prop_Grad.v
theories/Prop_GradSum.v
theories/Prop_Helpers.v
theories/Prop_HnnEnergy.v
theories/Prop_HybInv.v
theories/Prop_HybPlain.v
theories/Prop_Hybrid.v
theories/Prop_Hyper.v
theories/Prop_HyperAdj.v
theories/Prop_Implicit.v
theories/Prop_Import.v
theories/Prop_Inv.v
theories/Prop_Jagged.v
theories/Prop_Jump.v
theories/Prop_Land.v
theories/Prop_Leap.v
theories/Prop_LeapAff.v
theories/Prop_LeapGrad.v
theories/Prop_LeapInv.v
theories/Prop_Lin.v
theories/Prop_Loss.v
theories/Prop_MS.v
theories/Prop_Models.v
theories/Prop_Module.v
theories/Prop_Moment.v
theories/Prop_Mono.v
theories/Prop_NaN.v
theories/Prop_NeuralSde.v
theories/Prop_Nn.v
theories/Prop_Oracle.v
theories/Prop_Order.v
theories/Prop_Para.v
theories/Prop_Plot.v
theories/Prop_Prom.v
theories/Prop_Rel.v
theories/Prop_Repeat.v
theories/Prop_Request.v
theories/Prop_Root.v
theories/Prop_RootConv.v
theories/Prop_RootLog.v
theories/Prop_Rotate.v
theories/Prop_Round.v
theories/Prop_RoundRK.v
theories/Prop_Scalar.v
theories/Prop_Scale.v
theories/Prop_Sde.v
theories/Prop_SdeBack.v
theories/Prop_SdeBlock.v
theories/Prop_SdeCausal.v
theories/Prop_SdeConv.v
theories/Prop_SdeDep.v
theories/Prop_SdeGrad.v
theories/Prop_SdeInv.v
theories/Prop_SdeLaws.v
theories/Prop_SdeOrder.v
theories/Prop_SdePerm.v
theories/Prop_SdeRepeat.v
theories/Prop_SdeSuper.v
theories/Prop_Second.v
theories/Prop_Sens.v
theories/Prop_SensP.v
theories/Prop_ShootGrad.v
theories/Prop_ShootInv.v
theories/Prop_Sim.v
theories/Prop_Spline.v
theories/Prop_Steps.v
theories/Prop_Stiff.v
theories/Prop_Super.v
theories/Prop_Symp.v
theories/Prop_Systems.v
theories/Prop_TimeGrad.v
theories/Prop_TimeState.v
theories/Prop_Tol.v
theories/Prop_Unit.v
theories/Prop_Utils.v
theories/Prop_Values.v
theories/Prop_Warn.v
theories/Prop_Weak.v
theories/Py.v
theories/Spec_Adaptive.v
theories/Spec_Autograd.v
theories/Spec_Cnf.v
theories/Spec_Conv.v
theories/Spec_Core.v
theories/Spec_Data.v
theories/Spec_Diss.v
theories/Spec_Dtype.v
theories/Spec_Grad.v
theories/Spec_Hybrid.v
theories/Spec_Image.v
theories/Spec_Inv.v
theories/Spec_Land.v
theories/Spec_Leap.v
theories/Spec_Lin.v
theories/Spec_Loss.v
theories/Spec_MS.v
theories/Spec_Models.v
theories/Spec_Module.v
theories/Spec_Moment.v
theories/Spec_NeuralSde.v
theories/Spec_Nn.v
theories/Spec_Norm.v
theories/Spec_Ode.v
theories/Spec_Oracle.v
theories/Spec_Order.v
theories/Spec_RK.v
theories/Spec_Root.v
theories/Spec_Round.v
theories/Spec_Sde.v
theories/Spec_Second.v
theories/Spec_Sens.v
theories/Spec_Spline.v
theories/Spec_Systems.v
theories/Spec_Trees.v
theories/Tensor.v
