(* The copying action moves the wrong entries. *)
From Coq Require Import ZArith List Bool Lia ZifyBool ZifyNat Reals Lra.
From Verif Require Import Model_Base Model_Perm Model_Part Model_Irrep Model_Fun Model_FFT Model_Multi.
From Verif Require Import Spec_Perm Spec_Part Spec_Tab Spec_Rep Spec_Sign Spec_Multi.
From Verif Require Import Proof_Base Proof_Perm Proof_Sum Proof_Restr Proof_Mat Proof_IrrepProps Proof_Complete Proof_Sign4 Proof_Multi.
Import ListNotations.
Open Scope Z_scope.

Lemma swap_perm : is_perm 2 [2; 1].
Proof. split; [reflexivity|]. split; [intros x [<-|[<-|[]]]; lia|]. repeat constructor; cbn; intuition lia. Qed.

Lemma rsum_1 f : rsum 1 f = f 0.
Proof. rewrite rsum_lsum. change (zrange 0 1) with [0]. unfold lsum. cbn. lra. Qed.

Theorem copy_wrong o T : irr_new [1; 1] = Ret o -> t_n0 T = 1 -> t_n1 T = 2 -> t_n2 T = 2 ->
  exists T1 T2, mp_apply_copy 0 1 [2; 1] (mkMpart o T) = Ret (mkMpart o T1) /\ mp_apply_perm 0 1 [2; 1] (mkMpart o T) = Ret (mkMpart o T2) /\
    (t_at T1 0 0 1 = t_at T 0 0 1 /\ t_at T1 0 1 0 = - t_at T 0 1 0)%R /\ (t_at T2 0 0 1 = - t_at T 0 0 1 /\ t_at T2 0 1 0 = t_at T 0 1 0)%R.
Proof.
  intros E N0 N1 N2. change [1; 1] with (column 2) in E. destruct (sign_matrix 2 o [2; 1] ltac:(lia) E swap_perm) as (D & M & EM & V). change (sign [2; 1]) with (-1) in V.
  pose proof (is_part_column 2 ltac:(lia)) as P.
  destruct (copy_acts 2 (column 2) o [2; 1] 0 1 T P ltac:(lia) E swap_perm) as (M1 & T1 & EM1 & E1 & _ & _ & _ & V1); try lia. rewrite EM in EM1. apply Ret_inj in EM1. subst M1.
  destruct (batch_history 2 (column 2) o [BPerm [2; 1] 0 1] T P ltac:(lia) E) as (T2 & E2 & _ & _ & _ & V2); try lia. { constructor; [|constructor]. split; [apply swap_perm|lia]. }
  exists T1, T2. split; auto. split. { unfold run_bops in E2. cbn [foldM run_bop] in E2. apply bind_inv in E2 as (P2 & E2 & X). apply Ret_inj in X. subst P2. exact E2. }
  split; [split|split].
  - rewrite V1 by lia. reflexivity.
  - rewrite V1 by lia. rewrite N2. cbn [Z.eqb Z.mul Z.leb Z.ltb Z.add Z.compare andb Pos.compare Pos.compare_cont Pos.mul]. unfold mprod. rewrite D. rewrite rsum_1. rewrite V. lra.
  - destruct (V2 0 ltac:(lia)) as (q & M2 & Pq & Iq & EM2 & Vq). assert (q = [2; 1]) as ->. { apply (perm_ext 2); [apply is_perm_len; auto|reflexivity|]. intros i Hi. rewrite Iq by auto. reflexivity. }
    rewrite EM in EM2. apply Ret_inj in EM2. subst M2. rewrite Vq by lia. unfold mprod. rewrite D. rewrite rsum_1. rewrite V. lra.
  - destruct (V2 1 ltac:(lia)) as (q & M2 & Pq & Iq & EM2 & Vq). destruct (identity_matrix 2 (column 2) o q P ltac:(lia) E) as (M3 & EM3 & _ & _ & A). { split; auto. }
    rewrite EM3 in EM2. apply Ret_inj in EM2. subst M2. rewrite Vq by lia. unfold mprod. rewrite D. rewrite rsum_1. rewrite A by lia. unfold delta. cbn. lra.
Qed.
