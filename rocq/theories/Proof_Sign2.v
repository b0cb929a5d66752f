(* Transposed shapes and tableaux. *)
From Coq Require Import ZArith List Bool Lia ZifyBool Reals Lra Permutation.
From Verif Require Import Model_Base Model_Tab Spec_Perm Spec_Part Spec_Tab Spec_Sign.
From Verif Require Import Proof_Base Proof_Perm Proof_Part Proof_Tab Proof_TabProps Proof_Cycles Proof_Cox Proof_Yor Proof_Sign1.
Import ListNotations.
Open Scope Z_scope.

(* number of rows that reach past column c *)
Definition cl (l : list Z) (c : Z) : Z := zlen (filter (fun x => c <? x) l).

Lemma transposed_ztab l : 0 <= row l 0 -> transposed l = ztab (row l 0) (cl l).
Proof.
  intros H. unfold transposed, ztab, zrange. rewrite map_map, Z.sub_0_r. apply map_ext. intros k. unfold cl, zlen. rewrite Z.add_0_l. auto.
Qed.

Lemma cl_le l c : 0 <= cl l c <= zlen l.
Proof. unfold cl, zlen. assert (length (filter (fun x => (c <? x)%Z) l) <= length l)%nat; [|lia]. induction l as [|x l IH]; cbn; [lia|]. destruct (c <? x); cbn [length]; lia. Qed.

Lemma cl_none l c : (forall x, In x l -> x <= c) -> cl l c = 0.
Proof.
  intros H. unfold cl. induction l as [|x l IH]; auto. cbn [filter]. assert ((c <? x) = false) as -> by (specialize (H x (or_introl eq_refl)); lia). apply IH. intros y Hy. apply H. right; auto.
Qed.

Lemma cl_cell n l r c : is_part n l -> 0 <= r -> 0 <= c -> (r < cl l c <-> c < row l r).
Proof.
  intros (A & B & _) Hr Hc. revert r Hr. induction l as [|x l IH]; intros r Hr.
  - unfold cl. cbn [filter]. change (zlen []) with 0. rewrite row_out by (change (zlen []) with 0; lia). lia.
  - inversion B as [|? ? B1 B2]; subst. rewrite row_cons by auto. specialize (IH (fun y Hy => A y (or_intror Hy)) B1).
    unfold cl. cbn [filter]. destruct (Z.ltb_spec c x) as [L|L].
    + rewrite zlen_cons. fold (cl l c). destruct (Z.eqb_spec r 0) as [->|N]; [pose proof (cl_le l c); lia|]. rewrite <- (IH (r - 1)) by lia. lia.
    + fold (cl l c). rewrite cl_none by (intros y Hy; rewrite Forall_forall in B2; specialize (B2 y Hy); lia). destruct (Z.eqb_spec r 0); [lia|].
      assert (row l (r - 1) <= c); [|lia]. destruct (Z_lt_dec (r - 1) (zlen l)); [|rewrite row_out by lia; lia].
      rewrite Forall_forall in B2. assert (In (row l (r - 1)) l) as I by (rewrite row_znth; apply znth_In; lia). specialize (B2 _ I). lia.
Qed.

Lemma row_transposed n l c : is_part n l -> 0 <= c -> row (transposed l) c = cl l c.
Proof.
  intros P Hc. pose proof (ppos_row_nonneg l 0 (is_part_ppos _ _ P)) as R0. rewrite transposed_ztab by auto. destruct (Z_lt_dec c (row l 0)).
  - rewrite row_znth, znth_ztab by lia. auto.
  - rewrite row_out by (rewrite zlen_ztab; lia). symmetry. pose proof (cl_le l c). destruct (Z.eq_dec (cl l c) 0); auto. pose proof (cl_cell n l 0 c P ltac:(lia) Hc). lia.
Qed.

Lemma zlen_transposed n l : is_part n l -> zlen (transposed l) = row l 0.
Proof. intros P. pose proof (ppos_row_nonneg l 0 (is_part_ppos _ _ P)). rewrite transposed_ztab, zlen_ztab by auto. auto. Qed.

Lemma cell_transposed n l r c : is_part n l -> (cell (transposed l) c r <-> cell l r c).
Proof.
  intros P. rewrite !cell_iff. split; intros (A & B).
  - rewrite (row_transposed n) in B by auto. split; [lia|]. split; [lia|]. apply (cl_cell n l r c P); lia.
  - rewrite (row_transposed n) by (auto; lia). split; [lia|]. split; [lia|]. apply (cl_cell n l r c P); lia.
Qed.

Lemma zsum_transposed n l : is_part n l -> zsum (transposed l) = n.
Proof.
  intros P. pose proof (ppos_row_nonneg l 0 (is_part_ppos _ _ P)) as R0. rewrite transposed_ztab by auto.
  assert (forall k m, (forall x, In x m -> 0 <= x <= k) -> zsum (ztab k (cl m)) = zsum m) as K.
  { intros k m. induction m as [|x m IH]; intros H.
    - unfold cl. cbn [filter zsum fold_right]. change (zlen []) with 0. unfold ztab. induction (zrange 0 k) as [|y L IHL]; auto.
    - specialize (IH (fun y Hy => H y (or_intror Hy))). specialize (H x (or_introl eq_refl)). change (zsum (x :: m)) with (x + zsum m). rewrite <- IH.
      assert (zsum (ztab k (cl (x :: m))) = zsum (ztab k (fun c => if c <? x then 1 else 0)) + zsum (ztab k (cl m))) as ->.
      { unfold ztab. induction (zrange 0 k) as [|y L IHL]; auto. cbn [map]. change (zsum (cl (x :: m) y :: map (cl (x :: m)) L)) with (cl (x :: m) y + zsum (map (cl (x :: m)) L)). change (zsum ((if y <? x then 1 else 0) :: map (fun c => if c <? x then 1 else 0) L)) with ((if y <? x then 1 else 0) + zsum (map (fun c => if c <? x then 1 else 0) L)). change (zsum (cl m y :: map (cl m) L)) with (cl m y + zsum (map (cl m) L)).
        rewrite IHL. unfold cl at 1. cbn [filter]. destruct (y <? x); [rewrite zlen_cons|]; fold (cl m y); lia. }
      f_equal. clear - H. assert (forall j, 0 <= j -> zsum (ztab j (fun c => if c <? x then 1 else 0)) = Z.min j x) as Q; [|rewrite Q; lia].
      intros j Hj. pattern j. apply natlike_ind; auto.
      + unfold ztab. rewrite zrange_nil by lia. cbn. lia.
      + intros i Hi IHi. unfold ztab in *. unfold Z.succ. rewrite zrange_snoc by lia. rewrite map_app, zsum_app, IHi. cbn [map zsum fold_right]. destruct (Z.ltb_spec i x); lia. }
  rewrite K; [apply P|]. intros x Hx. destruct P as (A & B & C). split; [specialize (A x Hx); lia|]. destruct (In_nth l x 0 Hx) as (k & Hk & E). pose proof (is_part_anti n l 0 (Z.of_nat k) (conj A (conj B C)) ltac:(lia)) as M. unfold row at 1 in M. rewrite Nat2Z.id in M. lia.
Qed.

Lemma is_part_transposed n l : is_part n l -> is_part n (transposed l).
Proof.
  intros P. apply is_part_intro.
  - intros x Hx. destruct (In_nth _ x 0 Hx) as (k & Hk & E). pose proof (zlen_transposed n l P) as L. unfold zlen in L.
    assert (x = row (transposed l) (Z.of_nat k)) as -> by (unfold row; rewrite Nat2Z.id; auto). rewrite (row_transposed n) by (auto; lia).
    pose proof (proj2 (cl_cell n l 0 (Z.of_nat k) P ltac:(lia) ltac:(lia)) ltac:(lia)). lia.
  - intros i Hi. rewrite !(row_transposed n) by (auto; lia). destruct (Z_le_dec (cl l (i + 1)) (cl l i)); auto. exfalso. pose proof (cl_le l i).
    pose proof (proj1 (cl_cell n l (cl l i) (i + 1) P ltac:(lia) ltac:(lia)) ltac:(lia)). pose proof (proj2 (cl_cell n l (cl l i) i P ltac:(lia) ltac:(lia)) ltac:(lia)). lia.
  - apply zsum_transposed; auto.
Qed.

Lemma row_ext n m l l' : is_part n l -> is_part m l' -> (forall r c, 0 <= r -> 0 <= c -> (c < row l r <-> c < row l' r)) -> l = l'.
Proof.
  intros P P' H. assert (forall r, 0 <= r -> row l r = row l' r) as E.
  { intros r Hr. pose proof (ppos_row_nonneg l r (is_part_ppos _ _ P)). pose proof (ppos_row_nonneg l' r (is_part_ppos _ _ P')). destruct (Z.lt_trichotomy (row l r) (row l' r)) as [L|[L|L]]; auto.
    - pose proof (H r (row l r) Hr ltac:(lia)). lia.
    - pose proof (H r (row l' r) Hr ltac:(lia)). lia. }
  assert (forall n l r, is_part n l -> 0 <= r -> (r < zlen l <-> 0 < row l r)) as Q.
  { clear. intros k q r Pm Hr. split; intros L; [|destruct (Z_lt_dec r (zlen q)); auto; rewrite row_out in L by lia; lia]. destruct Pm as (A & _). assert (In (row q r) q) as I by (rewrite row_znth; apply znth_In; lia). specialize (A _ I). lia. }
  assert (zlen l = zlen l') as L.
  { pose proof (zlen_nonneg l). pose proof (zlen_nonneg l'). destruct (Z.lt_trichotomy (zlen l) (zlen l')) as [X|[X|X]]; auto.
    - pose proof (Q n l (zlen l) P ltac:(lia)). pose proof (Q m l' (zlen l) P' ltac:(lia)). rewrite E in * by (clear -H0 H1; lia). lia.
    - pose proof (Q n l (zlen l') P ltac:(lia)). pose proof (Q m l' (zlen l') P' ltac:(lia)). rewrite E in * by (clear -H0 H1; lia). lia. }
  apply list_ext with (d := 0); auto. intros i Hi. rewrite <- !row_znth. apply E. lia.
Qed.

Lemma transposed_twice n l : is_part n l -> transposed (transposed l) = l.
Proof.
  intros P. pose proof (is_part_transposed n l P) as P'. apply (row_ext n n); auto; [apply is_part_transposed; auto|]. intros r c Hr Hc.
  rewrite (row_transposed n) by auto. rewrite (cl_cell n (transposed l) c r P') by auto. rewrite (row_transposed n) by auto. apply (cl_cell n); auto.
Qed.

(* ---- tableaux ---- *)
Definition ttr (t : list (list Z)) : list (list Z) := ztab (row (shp t) 0) (fun c => ztab (cl (shp t) c) (fun r => entry t r c)).

Section T.
  Variables (n : Z) (l : list Z) (t : list (list Z)).
  Hypothesis (P : is_part n l) (Hs : shp t = l).
  Let R0 : 0 <= row l 0. Proof. apply (ppos_row_nonneg l 0 (is_part_ppos _ _ P)). Qed.

  Lemma shp_ttr : shp (ttr t) = transposed l.
  Proof.
    unfold ttr. rewrite Hs, transposed_ztab by auto. unfold shp, ztab at 1 3. rewrite map_map. apply map_ext_in. intros c Hc. apply in_zrange in Hc. rewrite zlen_ztab; auto. apply cl_le.
  Qed.

  Lemma entry_ttr r c : cell l r c -> entry (ttr t) c r = entry t r c.
  Proof.
    intros C. pose proof (cell_transposed n l r c P) as Q. apply Q in C as C'. apply cell_rows in C' as C2. rewrite (zlen_transposed n) in C2 by auto. apply cell_iff in C as C3. apply cell_iff in C' as C4. rewrite (row_transposed n) in C4 by (auto; lia).
    rewrite entry_znth. unfold ttr. rewrite Hs. rewrite znth_ztab by lia. rewrite znth_ztab by lia. auto.
  Qed.

  Lemma in_ttr v : In v (concat (ttr t)) <-> In v (concat t).
  Proof.
    rewrite !In_concat_cell, shp_ttr, Hs. split; intros (r & c & C & E).
    - apply (cell_transposed n l c r P) in C. exists c, r. split; auto. rewrite <- E. symmetry. apply entry_ttr. auto.
    - exists c, r. split; [apply (cell_transposed n l r c P); auto|]. rewrite entry_ttr; auto.
  Qed.
End T.

Lemma zlen_concat_shp t : zlen (concat t) = zsum (shp t).
Proof. induction t as [|x t IH]; auto. cbn [concat]. rewrite zlen_app, IH. reflexivity. Qed.

Lemma fill_ttr n l t : is_part n l -> shp t = l -> fill n t -> fill n (ttr t).
Proof.
  intros P Hs F. unfold fill in *. pose proof F as (L & B & N). assert (zlen (concat (ttr t)) = n) as L' by (rewrite zlen_concat_shp, (shp_ttr n l) by auto; apply zsum_transposed; auto).
  split; [exact L'|]. split; [intros v Hv; apply B, (in_ttr n l t P Hs); auto|].
  apply (NoDup_incl_NoDup N).
  - unfold zlen in L'. lia.
  - intros v Hv. apply (in_ttr n l t P Hs); auto.
Qed.

Lemma ttr_tswap n l t i j : is_part n l -> shp t = l -> ttr (tswap i j t) = tswap i j (ttr t).
Proof.
  intros P Hs. assert (shp (tswap i j t) = l) as Hs' by (rewrite shp_tswap; auto). apply tab_ext.
  - rewrite shp_tswap, !(shp_ttr n l) by auto. auto.
  - intros c r C. rewrite (shp_ttr n l) in C by auto. rewrite entry_tswap by (rewrite (shp_ttr n l); auto). apply (cell_transposed n l r c P) in C as C'. rewrite !(entry_ttr n l) by auto. apply entry_tswap. rewrite Hs. auto.
Qed.

Lemma cont_ttr n l t v : is_part n l -> shp t = l -> fill n t -> 1 <= v <= n -> cont (ttr t) v = - cont t v.
Proof.
  intros P Hs F Hv. assert (In v (concat t)) as I by (eapply is_perm_onto; eauto). apply In_concat_cell in I as (r & c & C & <-). rewrite (cont_cell t r c) by (auto; apply F).
  rewrite Hs in C. rewrite <- (entry_ttr n l t P Hs r c C). rewrite (cont_cell (ttr t) c r); [lia| |].
  - apply (fill_ttr n l t P Hs F).
  - rewrite (shp_ttr n l) by auto. apply (cell_transposed n l r c P). auto.
Qed.

Lemma standard_ttr n l t : is_part n l -> standard l t -> standard (transposed l) (ttr t).
Proof.
  intros P S. pose proof (standard_fill _ _ _ P S) as F. pose proof (proj1 (has_shape_shp _ _) (proj1 S)) as Hs. destruct S as (_ & _ & A & B).
  split; [apply has_shape_shp; apply (shp_ttr n); auto|]. split; [rewrite (zsum_transposed n) by auto; apply (fill_ttr n l t P Hs F)|]. split.
  - intros c r C1 C2. apply (cell_transposed n l _ _ P) in C1, C2. rewrite !(entry_ttr n l) by auto. apply B; auto.
  - intros c r C1 C2. apply (cell_transposed n l _ _ P) in C1, C2. rewrite !(entry_ttr n l) by auto. apply A; auto.
Qed.

Lemma ttr_twice n l t : is_part n l -> shp t = l -> ttr (ttr t) = t.
Proof.
  intros P Hs. pose proof (is_part_transposed n l P) as P'. pose proof (shp_ttr n l t P Hs) as S'. apply tab_ext.
  - rewrite (shp_ttr n (transposed l)) by auto. rewrite (transposed_twice n) by auto. auto.
  - intros r c C. rewrite (shp_ttr n (transposed l)), (transposed_twice n) in C by auto. rewrite (entry_ttr n (transposed l)) by (auto; apply (cell_transposed n l); auto). apply (entry_ttr n l); auto.
Qed.
