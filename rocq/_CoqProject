-Q theories Verif
theories/Prelude.v
theories/ExtReal.v
theories/Arrays.v
theories/Spec_Basis.v
theories/M_Basis.v
theories/L_Basis.v
theories/L_BasisEx.v
theories/Props_Basis.v
theories/M_Parents.v
theories/M_Discrete.v
theories/Spec_Discrete.v
theories/L_Discrete.v
theories/L_Minibatch.v
theories/Props_Discrete.v
theories/Spec_Parents.v
theories/L_Parents.v
theories/Props_Parents.v
theories/Spec_Gibbs.v
theories/M_Gibbs.v
theories/L_Gibbs.v
theories/Props_Gibbs.v
theories/M_Dist.v
theories/Props_Dist.v
theories/M_Network.v
theories/Spec_Network.v
theories/L_Network.v
theories/Props_Network.v
theories/M_Sweep.v
theories/L_Sweep.v
theories/Props_Sweep.v
theories/Props_Sweep2.v
theories/M_MeanField.v
theories/Props_MeanField.v
theories/Spec_Vlb.v
theories/M_Vlb.v
theories/L_Vlb.v
theories/L_Vlb2.v
theories/L_Vlb3.v
theories/L_Vlb4.v
theories/L_Vlb5.v
theories/L_Vlb6.v
theories/L_Vlb7.v
theories/Props_Vlb.v
theories/Spec_Gamma.v
theories/L_Gamma.v
theories/Props_Gamma.v
theories/M_Heap.v
theories/L_Heap.v
theories/Props_Heap.v
theories/M_Standard.v
theories/L_Standard.v
theories/Props_Standard.v
theories/Props_Standard2.v
theories/M_Nonlinear.v
theories/Props_Nonlinear.v
theories/Props_Nonlinear2.v
theories/M_Continuous.v
theories/Spec_Continuous.v
theories/L_Continuous.v
theories/Props_Continuous.v
theories/L_Gauss.v
theories/Props_Continuous2.v
theories/Props_Continuous3.v
theories/Props_Continuous4.v
theories/Props_Continuous5.v
theories/Spec_Joint.v
theories/M_Prior.v
theories/Props_Prior.v
theories/L_Joint.v
theories/Props_Joint.v
theories/Props_CtSweep.v
theories/M_CtGenerate.v
theories/Props_CtGenerate.v
theories/M_Utils.v
theories/Props_Utils.v
theories/Props_Utils2.v
theories/Props_Utils3.v
theories/Props_Utils4.v
theories/M_Mixed.v
theories/Props_Mixed.v
theories/Spec_Labels.v
theories/Props_Expect.v
theories/M_Fit.v
theories/Props_Fit.v
theories/Props_Vlb2.v
theories/Props_NFit.v
theories/L_Euler.v
theories/Spec_Invariance.v
theories/L_Invariance.v
theories/Props_Invariance.v
theories/Spec_Moments.v
theories/L_Moments.v
theories/L_Dirichlet.v
theories/Props_Moments.v
theories/Spec_CtJoint.v
theories/Props_CtJoint.v
theories/M_Interrupt.v
theories/L_Interrupt.v
theories/Props_Interrupt.v
theories/M_Workers.v
theories/Spec_Workers.v
theories/L_Workers.v
theories/Props_Workers.v
theories/M_InitOwn.v
theories/Props_InitOwn.v
theories/Spec_LabelBound.v
theories/L_LabelBound.v
theories/Props_LabelBound.v
theories/Props_Fresh.v
theories/Props_ExactSS.v
theories/Props_Heap2.v
theories/Props_Fnmatch.v
theories/Props_Refused.v
theories/M_Query.v
theories/Props_Query.v
theories/M_InterruptVb.v
theories/Props_InterruptVb.v
theories/M_CtInit.v
theories/Props_CtInit.v
theories/Props_Refused2.v
theories/M_CtInterrupt.v
theories/Props_CtInterrupt.v
theories/M_CtReference.v
theories/Props_CtReference.v
theories/Props_Refused3.v
theories/M_StdFloat.v
theories/Props_StdFloat.v
theories/M_Buffers.v
theories/Props_Buffers.v
theories/M_CtBuffers.v
theories/Props_CtBuffers.v
theories/M_Plot.v
theories/Props_Plot.v
theories/Props_Refused4.v
theories/Spec_Simulation.v
theories/M_SimLaw.v
theories/Props_SimLaw.v
theories/L_Perron.v
theories/Spec_Stability.v
theories/L_Stability.v
theories/M_Stability.v
theories/Props_Stability.v
theories/Spec_Marginal.v
theories/M_ParentsLaw.v
theories/Props_Marginal.v
theories/Spec_Float.v
theories/M_FloatParents.v
theories/L_Float.v
theories/Props_Float.v
theories/M_FloatConv.v
theories/L_FloatConv.v
theories/Props_FloatConv.v
theories/Spec_Relabel.v
theories/L_Relabel.v
theories/Props_Relabel.v
theories/Spec_CtSim.v
theories/Props_CtSim.v
theories/Props_CtSim2.v
theories/Spec_Units.v
theories/Props_Units.v
theories/Spec_CtUnits.v
theories/Props_CtUnits.v
theories/M_Rvs.v
theories/Props_Rvs.v
theories/Props_CtRelabel.v
theories/Props_Influence.v
theories/Props_CtInfluence.v
theories/M_FloatMf.v
theories/Props_FloatMf.v
theories/Props_Refused5.v
theories/Spec_LabelLaw.v
theories/M_LabelLaw.v
theories/L_LabelLaw.v
theories/Props_LabelLaw.v
theories/Props_Ascent.v
theories/M_BasisArg.v
theories/Props_BasisArg.v
theories/M_Given.v
theories/Props_Given.v
theories/M_NetLl.v
theories/Props_NetLl.v
theories/Spec_Order.v
theories/Props_Order.v
theories/Props_Reach.v
theories/Props_Converge.v
theories/Spec_Cut.v
theories/Props_Cut.v
theories/Props_CutGibbs.v
theories/Props_CutMf.v
theories/Spec_CtCut.v
theories/Props_CtCut.v
theories/Props_CtCut2.v
