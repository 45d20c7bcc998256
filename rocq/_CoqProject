-Q theories Verif
theories/Num.v
theories/Tables.v
theories/M_Params.v
theories/M_Eos.v
theories/M_Dft.v
theories/M_Transport.v
theories/M_Text.v
theories/RNum.v
theories/RSum.v
theories/F_Params.v
theories/Spec.v
theories/F_Spec.v
theories/F_SpecPolar.v
theories/F_SpecAssoc.v
theories/F_MassAction.v
theories/F_Contrib.v
theories/F_Lump.v
theories/Samples.v
theories/F_Total.v
theories/F_Lump2.v
theories/P_Params.v
theories/P_Select.v
theories/P_Lump.v
theories/P_Basic.v
theories/F_Newton.v
theories/F_MassAction2.v
theories/F_Gauss.v
theories/F_NewtonR.v
theories/F_Cross.v
theories/P_Assoc.v
theories/P_Assoc2.v
theories/P_Segments.v
theories/P_Transport.v
theories/P_Text.v
theories/P_Fmt.v
theories/F_Dft.v
theories/F_Dft2.v
theories/P_Dft.v
theories/P_DftR.v
theories/F_DftT.v
theories/F_DftT2.v
theories/F_DftT3.v
theories/P_DftD.v
theories/F_Limit.v
theories/P_Limit.v
theories/F_Transfer.v
theories/XNum.v
theories/F_TransferS.v
theories/F_Transfer2.v
theories/F_Transfer3.v
theories/F_XParams.v
theories/P_Finite.v
theories/P_Finite2.v
theories/DNum.v
theories/F_Level.v
theories/P_Dual.v
theories/P_Dual2.v
theories/F_Linear.v
theories/F_Implicit.v
theories/F_DualNewton.v
theories/F_DualGauss.v
theories/P_Dual3.v
theories/F_Perm.v
theories/P_Converge.v
theories/P_Cross.v
theories/P_Split.v
theories/P_Conform.v
theories/F_Cont.v
theories/F_Perturb.v
theories/F_DualRun.v
theories/P_Dual4.v
theories/M_Virial.v
theories/F_Virial.v
theories/F_Taylor.v
theories/F_Virial2.v
theories/P_Virial.v
theories/F_DftU.v
theories/F_DftU2.v
theories/P_DftU.v
theories/M_Access.v
theories/P_Access.v
theories/SpecDft.v
theories/M_Profile.v
theories/P_Profile.v
theories/P_Profile2.v
theories/F_CrossDual.v
theories/P_DftX.v
theories/P_ProfileX.v
theories/P_DftE.v
theories/BNum.v
theories/F_Round.v
theories/P_Round.v
theories/P_RoundD.v
theories/F_Round2.v
theories/P_RoundH.v
theories/P_RoundC.v
theories/F_Round3.v
theories/P_RoundA.v
theories/P_HighT.v
theories/F_Class.v
theories/F_LevelRes.v
theories/P_Thermo.v
theories/Shipped.v
theories/M_Shipped.v
theories/P_Shipped.v
theories/P_Shipped2.v
theories/F_Track.v
theories/F_Nonanol.v
theories/P_NonPhys.v
theories/M_Python.v
theories/P_Python.v
theories/P_Strength.v
theories/P_Units.v
theories/P_Close.v
theories/P_Npt.v
theories/P_Vle.v
theories/P_Cold.v
theories/P_Hot.v
theories/P_Critical.v
theories/P_Loops.v
theories/P_Boyle.v
theories/P_Vapour.v
theories/P_RoundP.v
theories/P_RoundQ.v
theories/P_Switch.v
theories/P_RoundX.v
theories/P_RoundY.v
theories/P_RoundZ.v
theories/P_RoundT.v
theories/P_Pure.v
