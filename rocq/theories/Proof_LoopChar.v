(* The loop over the characters. *)
From Coq Require Import ZArith List Bool Lia ZifyBool Permutation Reals Lra.
From Verif Require Import Model_Base Model_Sn Model_Perm Model_Part Model_Comb Model_Tab Model_Irrep Model_Char Model_SnBank Model_Loop.
From Verif Require Import Spec_Perm Spec_Part Spec_Tab Spec_Rep Spec_Four Spec_Char.
From Verif Require Import Proof_Base Proof_Perm Proof_Sn Proof_SnProps Proof_Part Proof_PartProps Proof_Tab Proof_TabProps Proof_CombBank Proof_Char Proof_CharBank Proof_Loop.
Import Model_Char ListNotations.
Open Scope Z_scope.

Lemma chars_size n b : 1 <= n -> cbinv b -> exists b', (r <- cb_level b n ;; let '(v, b) := r in v <- cl_make_all v ;; b <- wr b (n - 1) v ;; Ret (zlen (cl_chars v), b)) = Ret (zlen (insall (keys b n) (pl n)), b') /\
  cbinv b' /\ keys b' n = insall (keys b n) (pl n).
Proof.
  intros Hn I. destruct (cb_level_ok b n Hn I) as (v & b1 & E & I1 & V & L1 & Z1 & K1). rewrite E. cbn [bind]. destruct (cl_make_all_ok n v Hn V) as (v' & E' & V' & K'). rewrite E'. cbn [bind].
  assert (map fst (cl_chars v) = keys b n) as KV. { rewrite <- K1 by lia. unfold keys. destruct (Z.leb_spec n (zlen b1)); [|lia]. rewrite Z1. auto. } rewrite KV in K'.
  destruct (wr_level b1 n v' ltac:(lia) I1 V') as (b2 & E2 & I2 & _ & K2 & O2). rewrite E2. cbn [bind]. exists b2. split; [|split; auto].
  - rewrite <- K', zlen_map. reflexivity.
  - rewrite K2. auto.
Qed.

Lemma chars_each_once qs body n : Forall legal_chq qs -> (forall i, Forall legal_chq (body i)) -> 1 <= n ->
  exists fs1 b1 fs b2 ls, chrun qs [] = Ret (fs1, b1) /\ chars_loop n body b1 = Ret (fs, b2) /\ NoDup ls /\ (forall p, In p ls <-> is_part n p) /\ Forall2 (fun f l => character_of n l f) fs ls.
Proof.
  intros Lq Lb Hn. destruct (chrun_ok qs [] cbinv0 Lq) as (b1 & E1 & I1 & _ & _). destruct (chars_size n b1 Hn I1) as (b2 & E2 & I2 & K2). set (K := insall (keys b1 n) (pl n)) in *.
  pose proof (insall_lists n (keys b1 n) Hn (keys_nodup b1 n Hn I1) (fun l => keys_part b1 n l Hn I1)) as LP. fold K in LP.
  destruct (range_for_ok (fun b => cbinv b /\ keys b n = K) (fun i => chr n (znth K i [])) (fun b => r <- cb_level b n ;; let '(v, b) := r in v <- cl_make_all v ;; b <- wr b (n - 1) v ;; Ret (zlen (cl_chars v), b))
    (fun i b => chstep (ChAt n i) b) (fun i _ b => r <- chrun (body i) b ;; Ret (snd r)) b1 (zlen K) b2 E2) as (b3 & E3 & _).
  - apply zlen_nonneg.
  - auto.
  - intros i b Hi (Ib & Kb). assert (insall K (pl n) = K) as KK by (apply insall_full; intros l Hl; apply LP; apply in_pl; auto).
    destruct (chstep_ok (ChAt n i) b (ch_at_legal n i K Hn LP Hi) Ib) as (b4 & E4 & I4 & K4 & _). cbn [chans fst snd] in E4. rewrite Kb, KK in E4. specialize (K4 n Hn). cbn [chupd] in K4. rewrite Z.eqb_refl, Kb, KK in K4.
    destruct (chrun_ok (body i) b4 I4 (Lb i)) as (b5 & E5 & I5 & K5 & _). exists b4, b5. rewrite E4, E5. cbn [bind snd]. split; auto. split; auto. split; auto. rewrite K5 by auto. rewrite full_keys; auto. rewrite K4. auto.
  - eexists _, b1, _, b3, K. split; [exact E1|]. split; [exact E3|]. destruct LP as (N & I). split; auto. split; auto.
    replace (map (fun i => chr n (znth K i [])) (zrange 0 (zlen K))) with (map (chr n) K) by (rewrite <- (map_znth K []) at 1; rewrite map_map; auto).
    assert (forall l, In l K -> is_part n l) as F by (intros l; apply I). clear - F Hn. induction K as [|l K IH]; cbn [map]; constructor; [apply chr_character; auto; apply F; left; auto|apply IH; intros; apply F; right; auto].
Qed.
