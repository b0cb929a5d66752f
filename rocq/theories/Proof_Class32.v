(* class_size with 32-bit int: the same up to n = 12, undefined from n = 13 on. *)
From Coq Require Import ZArith List Bool Lia ZifyBool Permutation Arith Sorting.Sorted.
From Verif Require Import Model_Base Model_Sn Model_Perm Model_Class Model_Sn32 Model_Class32.
From Verif Require Import Spec_Perm Spec_Part Spec_Tab Spec_Rep Spec_Four.
From Verif Require Import Proof_Base Proof_Perm Proof_Sn Proof_SnProps Proof_Part Proof_PartProps Proof_Schur Proof_Char Proof_Class Proof_Class2.
Import ListNotations.
Open Scope Z_scope.

Lemma zzz_app_le a b : ppos (a ++ b) -> zzz b <= zzz (a ++ b).
Proof.
  induction a as [|x a IH]; intros P; [cbn [app]; lia|]. cbn [app] in *. apply ppos_inv in P as (P1 & P2). specialize (IH P2). pose proof (zzz_pos _ P2) as Q. cbn [zzz]. rewrite occ_cons. destruct (Z.eq_dec x x); [|contradiction]. assert (0 <= occ x (a ++ b)) by (unfold occ; lia). nia.
Qed.
Lemma zzz_firstn_le k l : ppos l -> zzz (firstn k l) <= zzz l.
Proof.
  intros P. rewrite <- (firstn_skipn k l) at 2. rewrite (zzz_perm _ _ (Permutation_app_comm (firstn k l) (skipn k l))). apply zzz_app_le. intros x Hx. apply P. rewrite <- (firstn_skipn k l). apply in_or_app. apply in_app_or in Hx. tauto.
Qed.
Lemma ppos_len l : ppos l -> zlen l <= zsum l.
Proof. induction l as [|x l IH]; intros P; [cbn; lia|]. apply ppos_inv in P as (P1 & P2). specialize (IH P2). rewrite zlen_cons. change (zsum (x :: l)) with (x + zsum l). lia. Qed.
Lemma occ_firstn x k l : occ x (firstn k l) <= zlen l.
Proof. unfold occ, zlen. pose proof (count_occ_bound Z.eq_dec x (firstn k l)). rewrite firstn_length in H. lia. Qed.
Lemma i32_small x : 0 <= x <= 479001600 -> i32 x = Ret x.
Proof. intros H. unfold i32. replace ((-2147483648 <=? x) && (x <=? 2147483647)) with true by lia. auto. Qed.
Lemma zfact_le12 n : 0 <= n <= 12 -> zfact n <= 479001600.
Proof. intros H. assert (In n (zrange 0 13)) as I by (apply in_zrange; lia). revert I. clear. intros I. cbv in I. repeat (destruct I as [<-|I]; [cbv; discriminate|]). contradiction. Qed.

Lemma csinv_start l : 1 <= zlen l -> csinv l 1 (znth l 0 0, 1, 1).
Proof.
  intros L. unfold csinv. assert (firstn (Z.to_nat 1) l = firstn (Z.to_nat 0) l ++ [znth l 0 0]) as -> by (apply (firstn_step l 0); lia). change (firstn (Z.to_nat 0) l ++ [znth l 0 0]) with [znth l 0 0]. split; auto. cbn [zzz]. rewrite !occ_cons. destruct (Z.eq_dec (znth l 0 0) (znth l 0 0)); [|contradiction]. change (occ (znth l 0 0) []) with 0. split; [lia|]. split; [lia|]. unfold cs_close. rewrite Z.pow_1_r. change (zfact 1) with 1. lia.
Qed.
Lemma csinv_step n l i prev count t : is_part n l -> 1 <= i < zlen l -> csinv l i (prev, count, t) ->
  csinv l (i + 1) (if znth l i 0 =? prev then (prev, count + 1, t) else (znth l i 0, 1, cs_close t prev count)).
Proof.
  intros P Hi (I1 & I2 & I3 & I4). destruct (Z.eqb_spec (znth l i 0) prev) as [E|E].
      + cbn [csinv]. replace (i + 1 - 1) with i by lia. rewrite firstn_step by lia. set (F := firstn (Z.to_nat i) l) in *. rewrite E.
        assert (Permutation (F ++ [prev]) (prev :: F)) as PF by (apply Permutation_sym, Permutation_cons_append). split; auto. split; [rewrite (occ_perm _ _ _ PF), occ_cons; destruct (Z.eq_dec prev prev); [lia|contradiction]|]. split; [lia|].
        rewrite (zzz_perm _ _ PF). cbn [zzz]. rewrite <- I4, occ_cons. destruct (Z.eq_dec prev prev); [|contradiction]. rewrite <- I2. unfold cs_close. rewrite Z.pow_add_r by lia. rewrite (zfact_step (count + 1)) by lia. replace (count + 1 - 1) with count by lia. rewrite Z.pow_1_r. ring.
      + cbn [csinv]. replace (i + 1 - 1) with i by lia. rewrite firstn_step by lia. set (F := firstn (Z.to_nat i) l) in *. set (x := znth l i 0) in *.
        assert (Permutation (F ++ [x]) (x :: F)) as PF by (apply Permutation_sym, Permutation_cons_append).
        assert (occ x F = 0) as O0.
        { unfold occ. destruct (in_dec Z.eq_dec x F) as [H|H]; [|apply (count_occ_not_In Z.eq_dec) in H; lia]. exfalso. destruct P as (_ & S & _).
          assert (F = firstn (Z.to_nat (i - 1)) l ++ [prev]) as EF. { unfold F. replace i with (i - 1 + 1) at 1 by lia. rewrite firstn_step by lia. rewrite <- I1. auto. }
          rewrite EF in H. apply in_app_or in H as [H|[H|[]]]; [|congruence]. pose proof (sorted_firstn l (i - 1) x S ltac:(lia) H) as A. rewrite <- I1 in A. assert (x <= prev) as B. { unfold x. apply (sorted_firstn l i prev S); [lia|]. fold F. rewrite EF. apply in_or_app. cbn. auto. } lia. }
        split; auto. split; [rewrite (occ_perm _ _ _ PF), occ_cons; destruct (Z.eq_dec x x); [lia|contradiction]|]. split; [lia|].
        rewrite (zzz_perm _ _ PF). cbn [zzz]. rewrite <- I4, occ_cons. destruct (Z.eq_dec x x); [|contradiction]. rewrite O0. unfold cs_close at 1. rewrite Z.pow_1_r. change (zfact 1) with 1. ring.
Qed.

Lemma close32_ok n l i prev count t : is_part n l -> 1 <= n <= 12 -> csinv l i (prev, count, t) -> cs_close32 t prev count = Ret (cs_close t prev count).
Proof.
  intros P Hn (I1 & I2 & I3 & I4). pose proof (is_part_ppos n l P) as PP. unfold cs_close32. assert (zsum l = n) as Sm by apply P.
  pose proof (ppos_len l PP). pose proof (occ_firstn prev (Z.to_nat i) l). rewrite zfact32_ok by lia. cbn [bind]. fold (cs_close t prev count). rewrite I4. apply i32_small.
  destruct (class_size_ok n l P ltac:(lia)) as (K & _ & _ & _ & E). pose proof (zfact_le12 n ltac:(lia)). pose proof (zfact_pos n). pose proof (zzz_firstn_le (Z.to_nat i) l PP). pose proof (zzz_pos l PP).
  assert (0 < zzz (firstn (Z.to_nat i) l)). { apply zzz_pos. intros x Hx. apply PP. rewrite <- (firstn_skipn (Z.to_nat i) l). apply in_or_app. auto. }
  assert (zzz l <= zfact n); [|lia]. assert (1 <= Z.of_nat (length K)) by nia. nia.
Qed.

Lemma zfor_both {S} (P : Z -> S -> Prop) lo hi (b1 b2 : Z -> S -> outcome S) s : lo <= hi -> P lo s ->
  (forall i s, lo <= i < hi -> P i s -> exists s', b1 i s = Ret s' /\ b2 i s = Ret s' /\ P (i + 1) s') ->
  exists s', zfor lo hi b1 s = Ret s' /\ zfor lo hi b2 s = Ret s' /\ P hi s'.
Proof.
  intros L H0 H. destruct (zfor_inv (fun i x => P i x /\ zfor lo i b2 s = Ret x) lo hi b1 s L) as (x & E & Q & F).
  - split; auto. unfold zfor. rewrite zrange_nil by lia. auto.
  - intros i x Hi (Q & F). destruct (H i x Hi Q) as (y & A & B & C). exists y. split; auto. split; auto. unfold zfor in *. rewrite (zrange_app lo i (i + 1)) by lia. rewrite foldM_app, F. cbn [bind]. rewrite zrange_cons by lia. rewrite zrange_nil by lia. cbn [foldM]. rewrite B. auto.
  - eauto.
Qed.

Lemma class_size32_ok n l : is_part n l -> 1 <= n <= 12 -> class_size32 n l = class_size n l.
Proof.
  intros P Hn. pose proof (part_len_pos n l P ltac:(lia)) as L. pose proof (is_part_ppos n l P) as PP. assert (zsum l = n) as Sm by apply P. pose proof (ppos_len l PP) as LL.
  unfold class_size32, class_size. destruct (Z.eqb_spec (zlen l) 0); [lia|]. rewrite (rd_ok l 0 0) by lia. cbn [bind].
  match goal with |- bind (zfor _ _ ?b1 _) _ = bind (zfor _ _ ?b2 _) _ => destruct (zfor_both (csinv l) 1 (zlen l) b1 b2 (znth l 0 0, 1, 1)) as (st & E1 & E2 & I) end.
  - lia.
  - apply csinv_start. lia.
  - intros i ((prev, count), t) Hi I. pose proof (csinv_step n l i prev count t P Hi I) as St. rewrite (rd_ok l i 0) by lia. cbn [bind]. destruct (Z.eqb_spec (znth l i 0) prev) as [E|E].
    + exists (prev, count + 1, t). split; [|auto]. destruct I as (_ & I2 & I3 & _). pose proof (occ_firstn prev (Z.to_nat i) l). rewrite i32_small by lia. auto.
    + rewrite (close32_ok n l i) by auto. cbn [bind]. eexists. split; [reflexivity|]. split; [reflexivity|]. auto.
  - rewrite E1, E2. cbn [bind]. destruct st as ((prev, count), t). rewrite (close32_ok n l (zlen l)) by auto. cbn [bind]. rewrite zfact32_ok by lia. auto.
Qed.

Definition ret_or_ub {S} (o : outcome S) : Prop := (exists s, o = Ret s) \/ o = UB.
Lemma zfor_ret_ub {S} lo hi (b : Z -> S -> outcome S) s : (forall i s, lo <= i < hi -> ret_or_ub (b i s)) -> ret_or_ub (zfor lo hi b s).
Proof.
  intros H. unfold zfor. assert (forall i, In i (zrange lo hi) -> forall s, ret_or_ub (b i s)) as G by (intros i Hi x; apply H, in_zrange, Hi). clear H. revert s G. induction (zrange lo hi) as [|i l IH]; intros s G; cbn [foldM].
  - left. eauto.
  - destruct (G i ltac:(left; auto) s) as [(x & ->)| ->]; cbn [bind]; [apply IH; intros j Hj; apply G; right; auto|right; auto].
Qed.
Lemma i32_ret_ub x : ret_or_ub (i32 x).
Proof. unfold i32. destruct (_ && _); [left; eauto|right; auto]. Qed.
Lemma close32_ret_ub t prev count : ret_or_ub (cs_close32 t prev count).
Proof. unfold cs_close32. destruct (zfor_ret_ub 1 (count + 1) (fun i f => i32 (f * i)) 1) as [(x & E)|E]; [intros; apply i32_ret_ub| |]; unfold zfact32; rewrite E; cbn [bind]; [apply i32_ret_ub|right; auto]. Qed.

Lemma class_size32_over n l : is_part n l -> 13 <= n -> class_size32 n l = UB.
Proof.
  intros P Hn. pose proof (part_len_pos n l P ltac:(lia)) as L. unfold class_size32. destruct (Z.eqb_spec (zlen l) 0); [lia|]. rewrite (rd_ok l 0 0) by lia. cbn [bind].
  match goal with |- bind (zfor ?a ?h ?b ?s) _ = _ => destruct (zfor_ret_ub a h b s) as [(((prev, count), t) & E)|E] end.
  - intros i ((prev, count), t) Hi. rewrite (rd_ok l i 0) by lia. cbn [bind]. destruct (znth l i 0 =? prev).
    + destruct (i32_ret_ub (count + 1)) as [(x & ->)| ->]; cbn [bind]; [left; eauto|right; auto].
    + destruct (close32_ret_ub t prev count) as [(x & ->)| ->]; cbn [bind]; [left; eauto|right; auto].
  - rewrite E. cbn [bind]. destruct (close32_ret_ub t prev count) as [(x & ->)| ->]; cbn [bind]; auto. rewrite zfact32_overflow by auto. auto.
  - rewrite E. auto.
Qed.

(* the group only enters through its order *)
Lemma class_size_any n m l : is_part m l -> 1 <= m -> class_size n l = cdiv (zfact n) (zzz l).
Proof.
  intros P Hm. pose proof (part_len_pos m l P Hm) as L. unfold class_size. destruct (Z.eqb_spec (zlen l) 0); [lia|]. rewrite (rd_ok l 0 0) by lia. cbn [bind].
  match goal with |- bind (zfor _ _ ?b _) _ = _ => destruct (zfor_inv (csinv l) 1 (zlen l) b (znth l 0 0, 1, 1)) as (st & E & I) end.
  - lia.
  - apply csinv_start. lia.
  - intros i ((prev, count), t) Hi I. pose proof (csinv_step m l i prev count t P Hi I) as St. rewrite (rd_ok l i 0) by lia. cbn [bind]. destruct (znth l i 0 =? prev); eexists; (split; [reflexivity|exact St]).
  - rewrite E. cbn [bind]. destruct st as ((prev, count), t). destruct I as (_ & _ & _ & I). rewrite I. unfold zlen. rewrite Nat2Z.id, firstn_all. auto.
Qed.
Lemma class_size_foreign n m mu K : 1 <= m -> is_part m mu -> NoDup K -> (forall p, In p K <-> cycle_type m p mu) ->
  class_size n mu = Ret (Z.quot (zfact n * Z.of_nat (length K)) (zfact m)).
Proof.
  intros Hm P N H. rewrite (class_size_any n m) by auto. destruct (class_size_ok m mu P Hm) as (K' & N' & H' & E & F). pose proof (class_size_counts m mu K P Hm N H) as E'. rewrite E in E'. apply Ret_inj in E'. rewrite E' in F.
  pose proof (zzz_pos mu (is_part_ppos m mu P)) as Q. pose proof (zfact_pos m). unfold cdiv. destruct (Z.eqb_spec (zzz mu) 0); [lia|]. f_equal. rewrite <- F. rewrite (Z.mul_comm (zfact n)). rewrite Z.quot_mul_cancel_l by nia. auto.
Qed.
Lemma class_size_empty : class_size 0 [] = Ret 0 /\ is_part 0 [] /\ cycle_type 0 [] [].
Proof.
  split; [reflexivity|]. split; [repeat split; auto; try (intros x []); constructor|]. split; [apply perm_pts; split; [lia|constructor]|]. exists []. split; [|reflexivity]. split; [apply perm_pts; split; [lia|constructor]|]. intros c k [].
Qed.
Lemma foreign_type n m mu : m <> n -> is_part m mu -> forall p, ~ cycle_type n p mu.
Proof.
  intros D P p T. destruct (cycle_type_conj n p mu T (is_part_ppos m mu P)) as (_ & _ & E & _). destruct P as (_ & _ & F). congruence.
Qed.
