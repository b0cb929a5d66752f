(* The matrices of the transposed shape. *)
From Coq Require Import ZArith List Bool Lia ZifyBool Reals Lra Permutation.
From Verif Require Import Model_Base Model_Perm Model_Sn Model_Part Model_Comb Model_Tab Model_Irrep Model_Type Model_Char Model_CG.
From Verif Require Import Spec_Perm Spec_Part Spec_Tab Spec_Rep Spec_Four Spec_Type Spec_CG Spec_Char Spec_Sign.
From Verif Require Import Proof_Base Proof_Perm Proof_Sn Proof_Part Proof_PartProps Proof_Tab Proof_TabProps Proof_Cycles Proof_Cox Proof_Yor Proof_Sum Proof_Irrep Proof_Rep Proof_Mat Proof_IrrepProps Proof_JM Proof_Conn Proof_Schur Proof_Restr Proof_UpDown Proof_Complete Proof_Char Proof_CharBank Proof_Type Proof_Rept Proof_FFTmath Proof_Kron Proof_CG Proof_CGdown Proof_CGvec1 Proof_CGvec2 Proof_Triv Proof_Sign1 Proof_Sign2.
Import ListNotations.
Open Scope Z_scope.

Definition tsg (t : list (list Z)) : R := IZR (sign (concat t)).
Lemma tsg_sq t : (tsg t * tsg t = 1)%R.
Proof. unfold tsg. rewrite <- mult_IZR, sign_sq. auto. Qed.

Lemma tsg_swap n t i : fill n t -> 1 <= i < n -> tsg (tswap i (i + 1) t) = (- tsg t)%R.
Proof.
  intros F Hi. unfold tsg. rewrite concat_tswap, sign_swap, opp_IZR; auto; [apply F| |]; eapply is_perm_onto; eauto; lia.
Qed.

Section W.
  Variables (n : Z) (l : list Z).
  Hypothesis (P : is_part n l).

  Definition twin (c : R) (f g : list (list Z) -> R) : Prop := forall t, standard l t -> g (ttr t) = (c * tsg t * f t)%R.

  Lemma twin_step i c f g : 1 <= i < n -> twin c f g -> twin (- c) (TT i f) (TT i g).
  Proof.
    intros Hi H t S. pose proof (standard_fill _ _ _ P S) as F. pose proof (proj1 (has_shape_shp _ _) (proj1 S)) as Hs. unfold TT.
    assert (del i (ttr t) = - del i t) as -> by (unfold del; rewrite !(cont_ttr n l) by (auto; lia); lia). rewrite Dd_opp, Sd_opp, <- (ttr_tswap n l) by auto. rewrite (H t S).
    assert (Sd (del i t) * g (ttr (tswap i (i + 1) t)) = Sd (del i t) * - (c * tsg t * f (tswap i (i + 1) t)))%R as ->; [|ring].
    destruct (Z.eq_dec (del i t) 1) as [E|N1]; [rewrite Sd_1 by auto; ring|]. destruct (Z.eq_dec (del i t) (-1)) as [E|N2]; [rewrite Sd_1 by auto; ring|].
    rewrite H by (apply (tswap_standard n); auto). rewrite (tsg_swap n) by auto. ring.
  Qed.

  Lemma twin_word w : forall c f g, (forall i, In i w -> 1 <= i < n) -> twin c f g -> twin ((-1) ^ length w * c) (aw TT w f) (aw TT w g).
  Proof.
    induction w as [|i w IH]; intros c f g Hw H; [unfold aw; cbn [fold_left length pow]; intros t S; rewrite H by auto; ring|].
    rewrite !aw_cons. specialize (IH (- c)%R _ _ (fun j Hj => Hw j (or_intror Hj)) (twin_step i c f g (Hw i (or_introl eq_refl)) H)).
    intros t S. rewrite IH by auto. cbn [length pow]. ring.
  Qed.

  Hypothesis (Hn : 1 <= n).
  Let P' : is_part n (transposed l). Proof. apply is_part_transposed; auto. Qed.
  Let G : good n l (mkirr n l). Proof. apply mkirr_ok; auto. Qed.
  Let G' : good n (transposed l) (mkirr n (transposed l)). Proof. apply mkirr_ok; auto. Qed.

  (* the place of the transposed tableau *)
  Definition tix (a : Z) : Z := pos (mkirr n (transposed l)) (ttr (tb (mkirr n l) a)).

  Lemma tix_ok a : 0 <= a < dd n l -> 0 <= tix a < dd n (transposed l) /\ tb (mkirr n (transposed l)) (tix a) = ttr (tb (mkirr n l) a).
  Proof. intros H. unfold tix. apply (pos_standard n (transposed l)); auto. apply (standard_ttr n); auto. apply (tb_standard n l); auto. Qed.

  Lemma tix_inj a b : 0 <= a < dd n l -> 0 <= b < dd n l -> tix a = tix b -> a = b.
  Proof.
    intros Ha Hb E. destruct (tix_ok a Ha) as (_ & Ea). destruct (tix_ok b Hb) as (_ & Eb). rewrite E, Eb in Ea.
    pose proof (proj1 (has_shape_shp _ _) (proj1 (tb_standard n l _ a G Ha))) as Sa. pose proof (proj1 (has_shape_shp _ _) (proj1 (tb_standard n l _ b G Hb))) as Sb.
    apply (f_equal ttr) in Ea. rewrite !(ttr_twice n l) in Ea by auto. rewrite <- (pos_tb n l _ a G Ha), <- (pos_tb n l _ b G Hb). congruence.
  Qed.

  Lemma rr_twist p a b : is_perm n p -> 0 <= a < dd n l -> 0 <= b < dd n l ->
    rr n (transposed l) p (tix a) (tix b) = (IZR (sign p) * (tsg (tb (mkirr n l) a) * tsg (tb (mkirr n l) b)) * rr n l p a b)%R.
  Proof.
    intros Pp Ha Hb. unfold rr, rho, Phi. destruct (tix_ok a Ha) as (_ & ->).
    rewrite (twin_word (pword (Z.to_nat n) p) (tsg (tb (mkirr n l) b)) (fcol (mkirr n l) (fun k => delta k b)) (fcol (mkirr n (transposed l)) (fun k => delta k (tix b)))).
    - rewrite (sign_pword n p Pp). unfold zlen. rewrite <- pow_sign. ring.
    - intros i. apply pword_in; auto.
    - intros t S. unfold fcol. destruct (pos_standard n l _ t G S) as (B & E). destruct (pos_standard n (transposed l) _ (ttr t) G' (standard_ttr n l t P S)) as (B' & E').
      assert (pos (mkirr n (transposed l)) (ttr t) = tix (pos (mkirr n l) t)) as -> by (unfold tix; rewrite E; auto).
      destruct (Z.eq_dec (pos (mkirr n l) t) b) as [<-|N].
      + rewrite E. unfold delta. destruct (Z.eq_dec (tix (pos (mkirr n l) t)) (tix (pos (mkirr n l) t))); [|congruence]. destruct (Z.eq_dec (pos (mkirr n l) t) (pos (mkirr n l) t)); [|congruence]. rewrite tsg_sq. ring.
      + unfold delta. destruct (Z.eq_dec (tix (pos (mkirr n l) t)) (tix b)) as [Q|_]; [apply tix_inj in Q; auto; contradiction|]. destruct (Z.eq_dec (pos (mkirr n l) t) b); [contradiction|]. ring.
    - apply (tb_standard n l); auto.
  Qed.

  Lemma dd_le : dd n l <= dd n (transposed l).
  Proof.
    pose proof (NoDup_incl_length (l := map tix (zrange 0 (dd n l))) (l' := zrange 0 (dd n (transposed l)))) as Q. rewrite map_length in Q.
    assert (length (zrange 0 (dd n l)) <= length (zrange 0 (dd n (transposed l))))%nat as L.
    { apply Q.
      - assert (forall L, NoDup L -> (forall x, In x L -> 0 <= x < dd n l) -> NoDup (map tix L)) as K; [|apply K; [apply NoDup_zrange|intros x Hx; apply in_zrange in Hx; auto]].
        induction L as [|x L IH]; intros N H; [constructor|]. inversion N as [|? ? N1 N2]; subst. cbn [map]. constructor; [|apply IH; auto; intros; apply H; right; auto].
        intros I. apply in_map_iff in I as (y & E & Hy). apply tix_inj in E; [subst; auto|apply H; right; auto|apply H; left; auto].
      - intros y Hy. apply in_map_iff in Hy as (x & <- & Hx). apply in_zrange in Hx. apply in_zrange. apply tix_ok; auto. }
    pose proof (zlen_zrange 0 (dd n l)). pose proof (zlen_zrange 0 (dd n (transposed l))). unfold zlen in *. pose proof (io_d_nonneg (mkirr n l)). pose proof (io_d_nonneg (mkirr n (transposed l))). unfold dd in *. lia.
  Qed.
End W.

Lemma dd_transposed n l : 1 <= n -> is_part n l -> dd n (transposed l) = dd n l.
Proof.
  intros Hn P. pose proof (dd_le n l P Hn). pose proof (dd_le n (transposed l) (is_part_transposed n l P) Hn) as Q. rewrite (transposed_twice n l P) in Q. lia.
Qed.

Lemma chi_transposed n l p : 1 <= n -> is_part n l -> is_perm n p -> chi n (transposed l) p = (IZR (sign p) * chi n l p)%R.
Proof.
  intros Hn P Pp. unfold chi, trace. rewrite (dd_transposed n l Hn P), !rsum_lsum.
  assert (Permutation (map (tix n l) (zrange 0 (dd n l))) (zrange 0 (dd n l))) as Pm.
  { apply NoDup_Permutation_bis.
    - assert (forall L, NoDup L -> (forall x, In x L -> 0 <= x < dd n l) -> NoDup (map (tix n l) L)) as K; [|apply K; [apply NoDup_zrange|intros x Hx; apply in_zrange in Hx; auto]].
      induction L as [|x L IH]; intros N H; [constructor|]. inversion N as [|? ? N1 N2]; subst. cbn [map]. constructor; [|apply IH; auto; intros; apply H; right; auto].
      intros I. apply in_map_iff in I as (y & E & Hy). apply tix_inj in E; auto; [subst; auto|apply H; right; auto|apply H; left; auto].
    - rewrite map_length. lia.
    - intros y Hy. apply in_map_iff in Hy as (x & <- & Hx). apply in_zrange in Hx. apply in_zrange. rewrite <- (dd_transposed n l Hn P). apply tix_ok; auto. }
  rewrite <- (lsum_Permutation _ _ _ Pm), lsum_map, <- lsum_scal. apply lsum_ext. intros a Ha. apply in_zrange in Ha. rewrite rr_twist by auto. rewrite tsg_sq. ring.
Qed.
