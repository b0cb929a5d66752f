(* apply_inplace of batched vectors works on copies. *)
From Coq Require Import ZArith List Bool Lia Reals Lra.
From Verif Require Import Model_Base Model_Perm Model_Part Model_Comb Model_Tab Model_Irrep Model_Type Model_FFT Model_Vec Model_Char Model_CG Model_CGvec Model_VecB Model_VecBIn.
From Verif Require Import Spec_Perm Spec_Part Spec_Tab Spec_Rep Spec_Four Spec_Type Spec_FFT Spec_Vec Spec_CG Spec_CGvec Spec_VecB.
From Verif Require Import Proof_Base Proof_Perm Proof_Part Proof_TabProps Proof_Type Proof_VecB2 Proof_VecB3.
Import ListNotations.
Open Scope Z_scope.

Lemma copies_dropped (f : partb -> outcome partb) v (w : list partb) : (forall P, In P v -> exists A, f P = Ret A) -> foldM (fun p w => p' <- f p ;; Ret w) v w = Ret w.
Proof.
  induction v as [|P v IH]; intros H; [reflexivity|]. cbn [foldM]. destruct (H P (or_introl eq_refl)) as (A & ->). cbn [bind]. apply IH. intros Q HQ. apply H. right. auto.
Qed.
Lemma batch_one n nb V P : batch_any n nb V -> In P V -> batch_any n nb [P].
Proof.
  intros (A & B & C) HP. split; [auto|]. split; [intros Q [<-|[]]; auto|]. intros k Q Hk [<-|[]]. apply C; auto.
Qed.
Lemma inplace_nothing n nb p V : 1 <= n -> is_perm n p -> batch_any n nb V -> vb_apply_inplace p V = Ret V.
Proof.
  intros Hn Pp B. apply copies_dropped. intros P HP. destruct (batched_action n nb p [P] Hn Pp (batch_one _ _ _ _ B HP)) as (V' & E & _). unfold vb_apply in E. cbn [foldM] in E. destruct (pb_apply p P) as [A| | |]; try discriminate. eauto.
Qed.
Lemma inplace_nothing_cycle n nb a b V : 1 <= n -> 1 <= a <= n -> 1 <= b <= n -> batch_any n nb V -> vb_apply_inplace_cycle (mkCyc a b) V = Ret V.
Proof.
  intros Hn Ha Hb B. apply copies_dropped. intros P HP. destruct (batched_action_cycle n nb a b P Hn Ha Hb (batch_one _ _ _ _ B HP)) as (c & P' & _ & E & _). eauto.
Qed.

Definition sign_part : partb := mkPartb (mkIrrep 2 [1; 1] [[[1]; [2]]]) (mkTen 1 1 1 (fun _ _ _ => 1%R)).
Lemma sign_batch : batch_any 2 1 [sign_part].
Proof.
  split; [lia|]. split; [intros P [<-|[]]; reflexivity|]. intros k P Hk [<-|[]]. exists [1; 1], 1. split; [apply decb_part; reflexivity|]. split; [vm_compute; reflexivity|]. split; [reflexivity|]. split; [reflexivity|lia].
Qed.
Lemma sign_moves : exists V', vb_apply [2; 1] [sign_part] = Ret V' /\ V' <> [sign_part].
Proof.
  eexists. split; [cbv -[Rplus Rmult Rinv IZR Ropp sqrt Rminus Rdiv]; reflexivity|]. intros H. apply (f_equal (fun v => map (fun P => t_at (pb_t P) 0 0 0) v)) in H. cbn in H. injection H as H. lra.
Qed.
