(* Young's orthogonal form on functions of tableaux. *)
From Coq Require Import ZArith List Bool Lia ZifyBool ZifyNat Reals Lra Psatz.
From Verif Require Import Model_Base Model_Tab Spec_Perm Spec_Part Spec_Tab Proof_Base Proof_Perm Proof_Part Proof_Tab Proof_TabProps Proof_Cycles Proof_Cox.
Import ListNotations.
Open Scope Z_scope.

Definition cont (t : list (list Z)) (v : Z) : Z := snd (yt_index t v) - fst (yt_index t v).

Definition del (i : Z) (t : list (list Z)) : Z := cont t (i + 1) - cont t i.

Definition Dd (z : Z) : R := (/ IZR z)%R.
Definition Sd (z : Z) : R := sqrt (1 - / (IZR (z * z))).

Definition TT (i : Z) (f : list (list Z) -> R) (t : list (list Z)) : R :=
  (Dd (del i t) * f t + Sd (del i t) * f (tswap i (i + 1) t))%R.

Lemma Sd_sq z : z <> 0 -> (Sd z * Sd z = 1 - Dd z * Dd z)%R.
Proof.
  intros H. unfold Sd, Dd. rewrite sqrt_sqrt.
  - rewrite mult_IZR. field. apply not_0_IZR; auto.
  - assert (1 <= z * z) by nia. apply IZR_le in H0. assert (/ IZR (z * z) <= 1)%R; [|lra].
    rewrite <- Rinv_1. apply Rinv_le_contravar; lra.
Qed.

Lemma Sd_opp z : Sd (- z) = Sd z.
Proof. unfold Sd. f_equal. f_equal. f_equal. f_equal. lia. Qed.

Lemma Dd_opp z : Dd (- z) = (- Dd z)%R.
Proof.
  unfold Dd. rewrite opp_IZR. destruct (Z.eq_dec z 0) as [->|H]; [rewrite Ropp_0, Rinv_0; lra|].
  field. apply not_0_IZR; auto.
Qed.

Lemma Sd_1 z : z = 1 \/ z = -1 -> Sd z = 0%R.
Proof. intros [->| ->]; unfold Sd; simpl; replace (1 - / 1)%R with 0%R by field; apply sqrt_0. Qed.

Lemma Dd_add p q : p <> 0 -> q <> 0 -> p + q <> 0 -> (Dd p * Dd q = Dd (p + q) * (Dd p + Dd q))%R.
Proof.
  intros Hp Hq Hr. unfold Dd. rewrite plus_IZR. field. repeat split; try (apply not_0_IZR; auto).
  rewrite <- plus_IZR. apply not_0_IZR; auto.
Qed.

(* ---- contents ---- *)

Lemma cont_cell t r c : NoDup (concat t) -> cell (shp t) r c -> cont t (entry t r c) = c - r.
Proof. intros N C. unfold cont. rewrite yt_index_ok by auto. reflexivity. Qed.

Lemma cont_tswap t i j v : NoDup (concat t) -> In i (concat t) -> In j (concat t) -> In v (concat t) -> cont (tswap i j t) v = cont t (swp i j v).
Proof.
  intros N Hi Hj Hv.
  assert (In (swp i j v) (concat t)) as Hs by (unfold swp; zcases; subst; auto).
  apply In_concat_cell in Hs as (r & c & C & E).
  rewrite <- E, cont_cell by auto. replace v with (entry (tswap i j t) r c).
  - apply cont_cell; [apply NoDup_tswap; auto|rewrite shp_tswap; auto].
  - rewrite entry_tswap by auto. rewrite E. apply swp_inv.
Qed.

Definition fill (n : Z) (t : list (list Z)) : Prop := is_perm n (concat t).

Lemma fill_tswap n t i j : 1 <= i <= n -> 1 <= j <= n -> fill n t -> fill n (tswap i j t).
Proof. intros Hi Hj F. unfold fill. rewrite concat_tswap. apply is_perm_swp; auto. Qed.

Lemma cont_fill n t i j v : fill n t -> 1 <= i <= n -> 1 <= j <= n -> 1 <= v <= n -> cont (tswap i j t) v = cont t (swp i j v).
Proof. intros F Hi Hj Hv. apply cont_tswap; [apply F| | |]; eapply is_perm_onto; eauto. Qed.

Lemma standard_fill n lambda t : is_part n lambda -> standard lambda t -> fill n t.
Proof. intros P S. unfold fill. rewrite <- (is_part_sum _ _ P). apply S. Qed.

Lemma tswap_comm i j k l t : i <> k -> i <> l -> j <> k -> j <> l -> tswap i j (tswap k l t) = tswap k l (tswap i j t).
Proof.
  intros. unfold tswap. rewrite !map_map. apply map_ext. intros rw. rewrite !map_map. apply map_ext. intros v. unfold swp. zcases.
Qed.

Lemma tswap_braid i t : tswap i (i + 1) (tswap (i + 1) (i + 1 + 1) (tswap i (i + 1) t)) = tswap (i + 1) (i + 1 + 1) (tswap i (i + 1) (tswap (i + 1) (i + 1 + 1) t)).
Proof.
  unfold tswap. rewrite !map_map. apply map_ext. intros rw. rewrite !map_map. apply map_ext. intros v. unfold swp. zcases.
Qed.

Lemma swp_1 i : swp i (i + 1) i = i + 1. Proof. unfold swp. zcases. Qed.
Lemma swp_2 i : swp i (i + 1) (i + 1) = i. Proof. unfold swp. zcases. Qed.
Lemma swp_3 i j v : v <> i -> v <> j -> swp i j v = v. Proof. unfold swp. zcases. Qed.

Lemma del_swap n t i : fill n t -> 1 <= i < n -> del i (tswap i (i + 1) t) = - del i t.
Proof.
  intros F Hi. unfold del. rewrite !(cont_fill n) by (auto; lia). rewrite swp_1, swp_2. lia.
Qed.

(* ---- Coxeter relations on fillings ---- *)

Lemma TT_invol n i f t : fill n t -> 1 <= i < n -> del i t <> 0 -> TT i (TT i f) t = f t.
Proof.
  intros F Hi D. unfold TT. rewrite (del_swap n), tswap_inv, Sd_opp, Dd_opp by auto.
  pose proof (Sd_sq _ D). set (a := Dd (del i t)) in *. set (b := Sd (del i t)) in *.
  transitivity ((a * a + b * b) * f t)%R; [ring|]. rewrite H. ring.
Qed.

Lemma TT_comm n i j f t : fill n t -> 1 <= i -> i + 1 < j -> j < n -> TT i (TT j f) t = TT j (TT i f) t.
Proof.
  intros F Hi Hij Hj. unfold TT.
  assert (del j (tswap i (i + 1) t) = del j t) as E1 by (unfold del; rewrite !(cont_fill n) by (auto; lia); rewrite !swp_3 by lia; auto).
  assert (del i (tswap j (j + 1) t) = del i t) as E2 by (unfold del; rewrite !(cont_fill n) by (auto; lia); rewrite !swp_3 by lia; auto).
  rewrite E1, E2. rewrite (tswap_comm i (i + 1) j (j + 1)) by lia. ring.
Qed.

Lemma TT_braid n i f t : fill n t -> 1 <= i -> i + 1 < n -> del i t <> 0 -> del (i + 1) t <> 0 -> del i t + del (i + 1) t <> 0 ->
  TT i (TT (i + 1) (TT i f)) t = TT (i + 1) (TT i (TT (i + 1) f)) t.
Proof.
  intros F Hi Hn Hp Hq Hr.
  set (p := del i t) in *. set (q := del (i + 1) t) in *.
  set (t1 := tswap i (i + 1) t). set (t2 := tswap (i + 1) (i + 1 + 1) t).
  set (t21 := tswap (i + 1) (i + 1 + 1) t1). set (t12 := tswap i (i + 1) t2).
  assert (fill n t1) as F1 by (apply fill_tswap; auto; lia). assert (fill n t2) as F2 by (apply fill_tswap; auto; lia).
  assert (fill n t21) as F21 by (apply fill_tswap; auto; lia). assert (fill n t12) as F12 by (apply fill_tswap; auto; lia).
  assert (del i t1 = - p) as A1 by (apply (del_swap n); auto; lia).
  assert (del (i + 1) t2 = - q) as A2 by (apply (del_swap n); auto; lia).
  assert (swp i (i + 1) (i + 1 + 1) = i + 1 + 1) as W1 by (apply swp_3; lia).
  assert (swp (i + 1) (i + 1 + 1) i = i) as W2 by (apply swp_3; lia).
  assert (del (i + 1) t1 = p + q) as B1 by (unfold p, q, del, t1; rewrite !(cont_fill n) by (auto; lia); rewrite swp_2, W1; lia).
  assert (del i t2 = p + q) as B2 by (unfold p, q, del, t2; rewrite !(cont_fill n) by (auto; lia); rewrite swp_1, W2; lia).
  assert (del i t21 = q) as C1 by (unfold p, q, del, t21; rewrite !(cont_fill n) by (auto; lia); rewrite swp_1, W2; unfold t1; rewrite !(cont_fill n) by (auto; lia); rewrite W1, swp_1; lia).
  assert (del (i + 1) t12 = p) as C2 by (unfold p, q, del, t12; rewrite !(cont_fill n) by (auto; lia); rewrite swp_2, W1; unfold t2; rewrite !(cont_fill n) by (auto; lia); rewrite W2, swp_2; lia).
  unfold TT. fold t1 t2. fold p q t21 t12. rewrite A1, A2, B1, B2, C1, C2, !Sd_opp, !Dd_opp.
  replace (tswap i (i + 1) t1) with t by (symmetry; apply tswap_inv).
  replace (tswap (i + 1) (i + 1 + 1) t2) with t by (symmetry; apply tswap_inv).
  replace (tswap (i + 1) (i + 1 + 1) t12) with (tswap i (i + 1) t21) by apply tswap_braid.
  pose proof (Sd_sq _ Hp) as S1. pose proof (Sd_sq _ Hq) as S2. pose proof (Dd_add _ _ Hp Hq Hr) as DA.
  set (f0 := f t). set (f1 := f t1). set (f2 := f t2). set (f12 := f t12). set (f21 := f t21). set (f3 := f (tswap i (i + 1) t21)).
  set (a := Dd p) in *. set (b := Dd q) in *. set (c := Dd (p + q)) in *. set (u := Sd p) in *. set (v := Sd q) in *. set (w := Sd (p + q)).
  clearbody f0 f1 f2 f12 f21 f3 a b c u v w.
  transitivity (f0 * (a * (a * b) + u * u * c) + f1 * (u * (a * b) - u * c * a) + f2 * a * v * c + f12 * a * v * w + f21 * u * w * b + f3 * u * v * w)%R; [ring|].
  transitivity (f0 * (b * (a * b) + v * v * c) + f2 * (v * (a * b) - v * c * b) + f1 * b * u * c + f21 * b * u * w + f12 * v * w * a + f3 * u * v * w)%R; [|ring].
  rewrite S1, S2, DA. ring.
Qed.

(* ---- standard tableaux ---- *)

Lemma standard_pos n lambda t v : is_part n lambda -> standard lambda t -> 1 <= v <= n ->
  exists r c, cell lambda r c /\ entry t r c = v /\ cont t v = c - r.
Proof.
  intros P S Hv. pose proof (standard_fill _ _ _ P S) as F. pose proof (proj1 (has_shape_shp _ _) (proj1 S)) as Hs.
  assert (In v (concat t)) as I by (eapply is_perm_onto; eauto). apply In_concat_cell in I as (r & c & C & E).
  exists r, c. rewrite <- Hs. split; [auto|]. split; auto. rewrite <- E. apply cont_cell; auto. apply F.
Qed.

Lemma del_nz n lambda t i : is_part n lambda -> standard lambda t -> 1 <= i < n -> del i t <> 0.
Proof.
  intros P S Hi. destruct (standard_pos n lambda t i P S) as (r1 & c1 & C1 & E1 & D1); [lia|].
  destruct (standard_pos n lambda t (i + 1) P S) as (r2 & c2 & C2 & E2 & D2); [lia|].
  pose proof (consecutive_positions n lambda t r1 c1 r2 c2 P S C1 C2 ltac:(lia)) as CP. unfold del. lia.
Qed.

Lemma del2_nz n lambda t i : is_part n lambda -> standard lambda t -> 1 <= i -> i + 1 < n -> del i t + del (i + 1) t <> 0.
Proof.
  intros P S Hi Hn. replace (del i t + del (i + 1) t) with (cont t (i + 1 + 1) - cont t i) by (unfold del; lia).
  destruct (standard_pos n lambda t i P S) as (r1 & c1 & C1 & E1 & D1); [lia|].
  destruct (standard_pos n lambda t (i + 1 + 1) P S) as (r2 & c2 & C2 & E2 & D2); [lia|].
  rewrite D1, D2. intros Z0. pose proof (proj1 (cell_iff _ _ _) C1). pose proof (proj1 (cell_iff _ _ _) C2).
  destruct (Z_le_dec r1 r2) as [L|L].
  - pose proof (standard_mono n lambda t r1 c1 r2 c2 P S C2 ltac:(lia) ltac:(lia)) as M.
    assert (r1 <> r2) by (intros ->; assert (c1 = c2) by lia; subst; lia).
    assert (r2 = r1 + 1 /\ c2 = c1 + 1) as (-> & ->) by lia.
    assert (cell lambda r1 (c1 + 1)) as X1 by (apply (cell_down n lambda r1 (c1 + 1) (r1 + 1) (c1 + 1)); auto; lia).
    assert (cell lambda (r1 + 1) c1) as X2 by (apply (cell_down n lambda (r1 + 1) c1 (r1 + 1) (c1 + 1)); auto; lia).
    pose proof (standard_mono n lambda t r1 c1 r1 (c1 + 1) P S X1 ltac:(lia) ltac:(lia)).
    pose proof (standard_mono n lambda t r1 (c1 + 1) (r1 + 1) (c1 + 1) P S C2 ltac:(lia) ltac:(lia)).
    pose proof (standard_mono n lambda t r1 c1 (r1 + 1) c1 P S X2 ltac:(lia) ltac:(lia)).
    pose proof (standard_mono n lambda t (r1 + 1) c1 (r1 + 1) (c1 + 1) P S C2 ltac:(lia) ltac:(lia)).
    pose proof (proj1 (has_shape_shp _ _) (proj1 S)) as Hs. pose proof (standard_fill _ _ _ P S) as F.
    destruct (entry_inj t r1 (c1 + 1) (r1 + 1) c1) as (Q & _); [apply F|rewrite Hs; auto|rewrite Hs; auto|lia|lia].
  - pose proof (standard_mono n lambda t r2 c2 r1 c1 P S C1 ltac:(lia) ltac:(lia)). lia.
Qed.

Lemma tswap_standard n lambda t i : is_part n lambda -> standard lambda t -> 1 <= i < n -> del i t <> 1 -> del i t <> -1 ->
  standard lambda (tswap i (i + 1) t).
Proof.
  intros P S Hi H1 H2. destruct (standard_pos n lambda t i P S) as (r1 & c1 & C1 & E1 & D1); [lia|].
  destruct (standard_pos n lambda t (i + 1) P S) as (r2 & c2 & C2 & E2 & D2); [lia|].
  destruct (apply_transp_standard n lambda t i P S) as (t' & d & Ht & _ & Hiff); [lia|lia|].
  pose proof (proj1 (has_shape_shp _ _) (proj1 S)) as Hs. pose proof (standard_fill _ _ _ P S) as F.
  rewrite (apply_transp_ok t i (i + 1) r1 c1 r2 c2) in Ht; try rewrite Hs; auto; [|apply F]. apply Ret_inj in Ht. injection Ht as E Ed.
  rewrite E. apply Hiff. unfold del in *. lia.
Qed.

(* swapping is standard exactly when the distance is not 1 *)
Lemma tswap_not_standard n lambda t i : is_part n lambda -> standard lambda t -> 1 <= i < n -> del i t = 1 \/ del i t = -1 ->
  ~ standard lambda (tswap i (i + 1) t).
Proof.
  intros P S Hi H. destruct (standard_pos n lambda t i P S) as (r1 & c1 & C1 & E1 & D1); [lia|].
  destruct (standard_pos n lambda t (i + 1) P S) as (r2 & c2 & C2 & E2 & D2); [lia|].
  destruct (apply_transp_standard n lambda t i P S) as (t' & d & Ht & _ & Hiff); [lia|lia|].
  pose proof (proj1 (has_shape_shp _ _) (proj1 S)) as Hs. pose proof (standard_fill _ _ _ P S) as F.
  rewrite (apply_transp_ok t i (i + 1) r1 c1 r2 c2) in Ht; try rewrite Hs; auto; [|apply F]. apply Ret_inj in Ht. injection Ht as E Ed.
  rewrite E, Hiff. unfold del in *. lia.
Qed.

Definition eqS (lambda : list Z) (f g : list (list Z) -> R) : Prop := forall t, standard lambda t -> f t = g t.

Lemma eqS_refl l f : eqS l f f. Proof. intros t _; reflexivity. Qed.
Lemma eqS_sym l f g : eqS l f g -> eqS l g f. Proof. intros H t S; symmetry; auto. Qed.
Lemma eqS_trans l f g h : eqS l f g -> eqS l g h -> eqS l f h. Proof. intros H K t S; rewrite H; auto. Qed.

Lemma TT_eqS n l i f g : is_part n l -> 1 <= i < n -> eqS l f g -> eqS l (TT i f) (TT i g).
Proof.
  intros P Hi E t S. unfold TT. rewrite (E t S). f_equal.
  destruct (Z.eq_dec (del i t) 1) as [D|D]; [rewrite Sd_1 by lia; ring|].
  destruct (Z.eq_dec (del i t) (-1)) as [D'|D']; [rewrite Sd_1 by lia; ring|].
  rewrite (E (tswap i (i + 1) t)); auto. apply (tswap_standard n l); auto.
Qed.

Lemma cox_TT n l : is_part n l -> cox (eqS l) (fun _ => True) TT n.
Proof.
  intros P. split; [auto|]. split; [|split; [|split]].
  - intros. apply (TT_eqS n); auto.
  - intros j f Hj _ t S. apply (TT_invol n); auto; [eapply standard_fill; eauto|eapply del_nz; eauto].
  - intros j f Hj Hn _ t S. apply (TT_braid n); auto; [eapply standard_fill; eauto| | |].
    + eapply del_nz; eauto; lia.
    + eapply del_nz; eauto; lia.
    + eapply del2_nz; eauto.
  - intros i j f Hi Hij Hj _ t S. apply (TT_comm n); auto. eapply standard_fill; eauto.
Qed.

(* the action of a permutation of n *)
Definition Phi (n : Z) (p : list Z) (f : list (list Z) -> R) : list (list Z) -> R := aw TT (pword (Z.to_nat n) p) f.

Lemma Phi_mul n l p q f : is_part n l -> is_perm n p -> is_perm n q -> eqS l (Phi n (pmul p q) f) (Phi n p (Phi n q f)).
Proof.
  intros P Pp Pq. unfold Phi. assert (Z.of_nat (Z.to_nat n) = n) as E by (pose proof (is_perm_nonneg _ _ Pp); lia).
  apply (act_mul (eqS l) (fun _ => True) TT (eqS_refl l) (eqS_sym l) (eqS_trans l)); rewrite ?E; auto. apply cox_TT; auto.
Qed.

Lemma Phi_id n f : 0 <= n -> Phi n (pid n) f = f.
Proof. intros H. unfold Phi. replace n with (Z.of_nat (Z.to_nat n)) at 2 by lia. apply pword_pid. Qed.

Lemma Phi_eqS n l p f g : is_part n l -> is_perm n p -> eqS l f g -> eqS l (Phi n p f) (Phi n p g).
Proof.
  intros P Pp H. assert (Z.of_nat (Z.to_nat n) = n) as E by (pose proof (is_perm_nonneg _ _ Pp); lia).
  apply (aw_eqv (eqS l) (fun _ => True) TT n); auto; [apply cox_TT; auto|].
  intros j Hj. rewrite <- E. apply (pword_range (Z.to_nat n) p); auto. rewrite E; auto.
Qed.

(* a word of generators acts as the permutation it multiplies out to *)
Lemma word_Phi n l w f : is_part n l -> 1 <= n -> (forall j, In j w -> 1 <= j < n) ->
  eqS l (aw TT w f) (Phi n (aw (pstep n) w (pid n)) f).
Proof.
  intros P Hn H. unfold Phi. assert (Z.of_nat (Z.to_nat n) = n) as E by lia.
  pose proof (act_word (eqS l) (fun _ => True) TT (eqS_refl l) (eqS_sym l) (eqS_trans l) (Z.to_nat n) w f) as A. rewrite !E in A.
  apply A; auto. apply cox_TT; auto.
Qed.
