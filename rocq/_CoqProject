-Q theories Verif
theories/Model_Base.v
theories/Model_CG.v
theories/Model_CGvec.v
theories/Model_Char.v
theories/Model_Class.v
theories/Model_Class32.v
theories/Model_Comb.v
theories/Model_CombBank.v
theories/Model_FFT.v
theories/Model_Fill.v
theories/Model_Float.v
theories/Model_Fun.v
theories/Model_Group.v
theories/Model_Hash.v
theories/Model_Irrep.v
theories/Model_Learn.v
theories/Model_Life.v
theories/Model_Loop.v
theories/Model_Mem.v
theories/Model_Multi.v
theories/Model_Part.v
theories/Model_Perm.v
theories/Model_Prod.v
theories/Model_Random.v
theories/Model_Session.v
theories/Model_Sn.v
theories/Model_Sn32.v
theories/Model_SnBank.v
theories/Model_Str.v
theories/Model_Tab.v
theories/Model_Type.v
theories/Model_Vec.v
theories/Model_VecB.v
theories/Model_VecBIn.v
theories/Model_Weights.v
theories/Proof_Base.v
theories/Proof_Block.v
theories/Proof_CG.v
theories/Proof_CGdown.v
theories/Proof_CGvec1.v
theories/Proof_CGvec2.v
theories/Proof_CGvec3.v
theories/Proof_CGvec4.v
theories/Proof_CGvec5.v
theories/Proof_CGvec6.v
theories/Proof_CGvec7.v
theories/Proof_CGvec8.v
theories/Proof_Centre.v
theories/Proof_Char.v
theories/Proof_CharBank.v
theories/Proof_CharTab.v
theories/Proof_Class.v
theories/Proof_Class2.v
theories/Proof_Class3.v
theories/Proof_Class32.v
theories/Proof_CombBank.v
theories/Proof_CombBankProps.v
theories/Proof_Complete.v
theories/Proof_Conn.v
theories/Proof_Cox.v
theories/Proof_Cx.v
theories/Proof_Cycles.v
theories/Proof_Dot.v
theories/Proof_FFT.v
theories/Proof_FFTact.v
theories/Proof_FFTbank.v
theories/Proof_FFTblk.v
theories/Proof_FFTlay.v
theories/Proof_FFTlay2.v
theories/Proof_FFTmath.v
theories/Proof_FFTover.v
theories/Proof_FFTprops.v
theories/Proof_FFTprops2.v
theories/Proof_FFTquo.v
theories/Proof_FFTstep.v
theories/Proof_FFTwrong.v
theories/Proof_Faithful.v
theories/Proof_Fill.v
theories/Proof_Float1.v
theories/Proof_Float2.v
theories/Proof_Float3.v
theories/Proof_Float4.v
theories/Proof_Float5.v
theories/Proof_Float6.v
theories/Proof_Float7.v
theories/Proof_FloatBug.v
theories/Proof_FloatRun.v
theories/Proof_Fun.v
theories/Proof_Group.v
theories/Proof_GroupFour.v
theories/Proof_GroupFun.v
theories/Proof_GroupRep.v
theories/Proof_Hash.v
theories/Proof_Hook.v
theories/Proof_IEEE.v
theories/Proof_Int1.v
theories/Proof_Int2.v
theories/Proof_Int3.v
theories/Proof_Int4.v
theories/Proof_Irrep.v
theories/Proof_IrrepProps.v
theories/Proof_Isot.v
theories/Proof_JM.v
theories/Proof_Kron.v
theories/Proof_Learn1.v
theories/Proof_Learn10.v
theories/Proof_Learn11.v
theories/Proof_Learn2.v
theories/Proof_Learn3.v
theories/Proof_Learn4.v
theories/Proof_Learn5.v
theories/Proof_Learn6.v
theories/Proof_Learn7.v
theories/Proof_Learn8.v
theories/Proof_Learn9.v
theories/Proof_Life.v
theories/Proof_Lift.v
theories/Proof_Lift2.v
theories/Proof_Lift3.v
theories/Proof_Loop.v
theories/Proof_LoopChar.v
theories/Proof_Map.v
theories/Proof_Mat.v
theories/Proof_Mem.v
theories/Proof_Mem2.v
theories/Proof_MemProps.v
theories/Proof_Multi.v
theories/Proof_Multi2.v
theories/Proof_Part.v
theories/Proof_PartProps.v
theories/Proof_Perm.v
theories/Proof_PermProps.v
theories/Proof_Prod.v
theories/Proof_Prune.v
theories/Proof_Random.v
theories/Proof_Rbank.v
theories/Proof_Rep.v
theories/Proof_Rept.v
theories/Proof_Rept2.v
theories/Proof_Restr.v
theories/Proof_Schur.v
theories/Proof_Session.v
theories/Proof_Sign1.v
theories/Proof_Sign2.v
theories/Proof_Sign3.v
theories/Proof_Sign4.v
theories/Proof_Sn.v
theories/Proof_SnBank.v
theories/Proof_SnBank3.v
theories/Proof_SnBankProps.v
theories/Proof_SnProps.v
theories/Proof_Str.v
theories/Proof_Str2.v
theories/Proof_Str3.v
theories/Proof_Sum.v
theories/Proof_Tab.v
theories/Proof_TabProps.v
theories/Proof_Triv.v
theories/Proof_Type.v
theories/Proof_UpDown.v
theories/Proof_Vec.v
theories/Proof_Vec2.v
theories/Proof_Vec3.v
theories/Proof_Vec4.v
theories/Proof_Vec5.v
theories/Proof_Vec6.v
theories/Proof_Vec7.v
theories/Proof_Vec8.v
theories/Proof_VecB.v
theories/Proof_VecB2.v
theories/Proof_VecB3.v
theories/Proof_VecBIn.v
theories/Proof_View.v
theories/Proof_ViewExact.v
theories/Proof_ViewProps.v
theories/Proof_Weights.v
theories/Proof_Yor.v
theories/Prop_CG.v
theories/Prop_CGdown.v
theories/Prop_CGvec.v
theories/Prop_Centre.v
theories/Prop_Char.v
theories/Prop_CharBank.v
theories/Prop_CharTab.v
theories/Prop_Class.v
theories/Prop_CombBank.v
theories/Prop_Dot.v
theories/Prop_FFT.v
theories/Prop_Fill.v
theories/Prop_Float.v
theories/Prop_Fun.v
theories/Prop_Group.v
theories/Prop_Hash.v
theories/Prop_Hook.v
theories/Prop_Int.v
theories/Prop_Irrep.v
theories/Prop_Learn.v
theories/Prop_Life.v
theories/Prop_Lift.v
theories/Prop_Loop.v
theories/Prop_Mem.v
theories/Prop_Multi.v
theories/Prop_Part.v
theories/Prop_Perm.v
theories/Prop_Prod.v
theories/Prop_Random.v
theories/Prop_Schur.v
theories/Prop_Session.v
theories/Prop_Sign.v
theories/Prop_Sn.v
theories/Prop_SnBank.v
theories/Prop_Str.v
theories/Prop_Tab.v
theories/Prop_Type.v
theories/Prop_Vec.v
theories/Prop_VecB.v
theories/Prop_View.v
theories/Prop_Weights.v
theories/Spec_CG.v
theories/Spec_CGvec.v
theories/Spec_Centre.v
theories/Spec_Char.v
theories/Spec_CombBank.v
theories/Spec_FFT.v
theories/Spec_Fill.v
theories/Spec_Float.v
theories/Spec_Four.v
theories/Spec_Fun.v
theories/Spec_Group.v
theories/Spec_Hash.v
theories/Spec_Learn.v
theories/Spec_Life.v
theories/Spec_Lift.v
theories/Spec_Mem.v
theories/Spec_Multi.v
theories/Spec_Part.v
theories/Spec_Perm.v
theories/Spec_Prod.v
theories/Spec_Random.v
theories/Spec_Rep.v
theories/Spec_Session.v
theories/Spec_Sign.v
theories/Spec_SnBank.v
theories/Spec_Tab.v
theories/Spec_Type.v
theories/Spec_Vec.v
theories/Spec_VecB.v
theories/Spec_Weights.v
