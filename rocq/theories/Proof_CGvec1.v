(* Sums over blocks, for the Clebsch-Gordan product of vectors. *)
From Coq Require Import ZArith List Bool Lia Reals Lra.
From Verif Require Import Model_Base Model_Irrep Model_FFT.
From Verif Require Import Spec_Rep Spec_Four Spec_Type.
From Verif Require Import Proof_Base Proof_Sum Proof_Irrep Proof_Complete Proof_Type Proof_FFTmath Proof_FFTlay Proof_FFTblk Proof_Vec Proof_CGdown.
Import ListNotations.
Open Scope Z_scope.

(* the function that is g x on the block of x; the blocks lie one after the other and h gives their sizes *)
Fixpoint colsum {A} (X : list A) (h : A -> Z) (g : A -> Z -> R) (c : Z) : R :=
  match X with
  | [] => 0%R
  | x :: X' => ((if inrange c (h x) then g x c else 0) + colsum X' h g (c - h x)%Z)%R
  end.

Section Colsum.
  Context {A : Type} (h : A -> Z) (g : A -> Z -> R).

  Lemma colsum_neg X c : (forall x, In x X -> 0 <= h x) -> c < 0 -> colsum X h g c = 0%R.
  Proof.
    revert c. induction X as [|x X IH]; intros c H Hc; cbn [colsum]; auto. rewrite IH; [|intros; apply H; right; auto|specialize (H x (or_introl eq_refl)); lia].
    replace (inrange c (h x)) with false by (unfold inrange; lia). ring.
  Qed.

  Lemma colsum_high X c : (forall x, In x X -> 0 <= h x) -> zsum_over X h <= c -> colsum X h g c = 0%R.
  Proof.
    revert c. induction X as [|x X IH]; intros c H Hc; cbn [colsum]; auto. rewrite zsum_over_cons in Hc. assert (0 <= zsum_over X h) by (apply zsum_nonneg; intros; apply H; right; auto).
    rewrite IH; [|intros; apply H; right; auto|lia]. replace (inrange c (h x)) with false by (unfold inrange; lia). ring.
  Qed.

  Lemma colsum_at pre x post j : (forall y, In y (pre ++ x :: post) -> 0 <= h y) -> 0 <= j < h x -> colsum (pre ++ x :: post) h g (zsum_over pre h + j) = g x j.
  Proof.
    intros H Hj. induction pre as [|y pre IH]; cbn [app colsum].
    - rewrite zsum_over_nil, Z.add_0_l. rewrite inrange_true by auto. rewrite colsum_neg; [ring|intros; apply H; right; auto|lia].
    - rewrite zsum_over_cons. assert (0 <= zsum_over pre h) by (apply zsum_nonneg; intros; apply H; right; apply in_app_iff; auto).
      replace (inrange (h y + zsum_over pre h + j) (h y)) with false by (unfold inrange; lia). replace (h y + zsum_over pre h + j - h y) with (zsum_over pre h + j) by lia. rewrite IH; [ring|intros; apply H; right; auto].
  Qed.
End Colsum.

Lemma colsum_ext {A} X (h h' : A -> Z) g g' : (forall x, In x X -> h x = h' x) -> (forall x c, In x X -> 0 <= c < h x -> g x c = g' x c) -> forall c, colsum X h g c = colsum X h' g' c.
Proof.
  induction X as [|x X IH]; intros H G c; cbn [colsum]; auto. rewrite <- (H x (or_introl eq_refl)). rewrite (IH (fun y Hy => H y (or_intror Hy)) (fun y c Hy => G y c (or_intror Hy))). f_equal.
  destruct (inrange c (h x)) eqn:E; auto. apply G; [left; auto|]. unfold inrange in E. lia.
Qed.

Lemma colsum_map {A B} (m : A -> B) X h g c : colsum (map m X) h g c = colsum X (fun x => h (m x)) (fun x => g (m x)) c.
Proof. revert c. induction X as [|x X IH]; intros c; cbn [map colsum]; auto. rewrite IH. auto. Qed.

Lemma colsum_app {A} X Y (h : A -> Z) g c : colsum (X ++ Y) h g c = (colsum X h g c + colsum Y h g (c - zsum_over X h)%Z)%R.
Proof.
  revert c. induction X as [|x X IH]; intros c; cbn [app colsum].
  - rewrite zsum_over_nil, Z.sub_0_r. ring.
  - rewrite IH, zsum_over_cons. replace (c - h x - zsum_over X h) with (c - (h x + zsum_over X h)) by lia. ring.
Qed.

Lemma colsum_Forall2 {A B} (Q : A -> B -> Prop) X Y hA hB gA gB : Forall2 Q X Y -> (forall x y, In x X -> Q x y -> hA x = hB y) -> (forall x y c, In x X -> Q x y -> 0 <= c < hA x -> gA x c = gB y c) -> forall c, colsum X hA gA c = colsum Y hB gB c.
Proof.
  induction 1 as [|x y X Y H F IH]; intros Hh Hg c; cbn [colsum]; auto. rewrite <- (Hh x y (or_introl eq_refl) H). rewrite (IH (fun a b Ha => Hh a b (or_intror Ha)) (fun a b c Ha => Hg a b c (or_intror Ha))). f_equal.
  destruct (inrange c (hA x)) eqn:E; auto. apply Hg; [left; auto|auto|]. unfold inrange in E. lia.
Qed.

Lemma colsum_plus {A} X (h : A -> Z) g g' c : colsum X h (fun x c => (g x c + g' x c)%R) c = (colsum X h g c + colsum X h g' c)%R.
Proof. revert c. induction X as [|x X IH]; intros c; cbn [colsum]; [ring|]. rewrite IH. destruct (inrange c (h x)); ring. Qed.

Lemma colsum_scal {A} X (h : A -> Z) g a c : colsum X h (fun x c => (a * g x c)%R) c = (a * colsum X h g c)%R.
Proof. revert c. induction X as [|x X IH]; intros c; cbn [colsum]; [ring|]. rewrite IH. destruct (inrange c (h x)); ring. Qed.

Lemma colsum_rsum {A} X (h : A -> Z) d (f : Z -> A -> Z -> R) c : colsum X h (fun x c => rsum d (fun k => f k x c)) c = rsum d (fun k => colsum X h (f k) c).
Proof.
  revert c. induction X as [|x X IH]; intros c; cbn [colsum]; [rewrite rsum_lsum; symmetry; apply lsum_0; auto|]. rewrite IH. rewrite (rsum_lsum d (fun k => (_ + _)%R)), lsum_plus, <- !rsum_lsum. f_equal.
  destruct (inrange c (h x)); auto. rewrite rsum_lsum. symmetry. apply lsum_0. auto.
Qed.

(* a sum over all the blocks *)
Lemma rsum_blocks {A} X (h : A -> Z) (f : Z -> R) (phi : A -> Z -> R) : (forall x, In x X -> 0 <= h x) ->
  (forall pre x post j, X = pre ++ x :: post -> 0 <= j < h x -> f (zsum_over pre h + j) = phi x j) -> rsum (zsum_over X h) f = lsum X (fun x => rsum (h x) (phi x)).
Proof.
  revert f. induction X as [|x X IH]; intros f H E; [reflexivity|]. rewrite zsum_over_cons, lsum_cons. assert (0 <= zsum_over X h) by (apply zsum_nonneg; intros; apply H; right; auto). specialize (H x (or_introl eq_refl)) as Hx.
  rewrite rsum_split by auto. f_equal.
  - apply rsum_ext. intros j Hj. rewrite <- (E [] x X j eq_refl Hj). f_equal.
  - apply IH; [intros; apply H; right; auto|]. intros pre y post j -> Hj. rewrite <- (E (x :: pre) y post j eq_refl Hj). f_equal. rewrite zsum_over_cons. lia.
Qed.

Lemma block_find {A} X (h : A -> Z) c : (forall x, In x X -> 0 <= h x) -> 0 <= c < zsum_over X h -> exists pre x post j, X = pre ++ x :: post /\ 0 <= j < h x /\ c = zsum_over pre h + j.
Proof.
  revert c. induction X as [|x X IH]; intros c H Hc; [rewrite zsum_over_nil in Hc; lia|]. rewrite zsum_over_cons in Hc. destruct (Z_lt_le_dec c (h x)) as [L|L].
  - exists [], x, X, c. rewrite zsum_over_nil. split; [auto|lia].
  - destruct (IH (c - h x)) as (pre & y & post & j & -> & Hj & E); [intros; apply H; right; auto|lia|]. exists (x :: pre), y, post, j. rewrite zsum_over_cons. split; [auto|]. lia.
Qed.

(* where the block of x begins *)
Fixpoint before {A} (dec : forall x y : A, {x = y} + {x <> y}) (h : A -> Z) (X : list A) (x : A) : Z :=
  match X with
  | [] => 0
  | y :: X' => if dec y x then 0 else h y + before dec h X' x
  end.

Lemma before_split {A} dec (h : A -> Z) pre x post : ~ In x pre -> before dec h (pre ++ x :: post) x = zsum_over pre h.
Proof.
  induction pre as [|y pre IH]; intros N; cbn [app before].
  - destruct (dec x x); [reflexivity|congruence].
  - destruct (dec y x) as [->|_]; [destruct N; left; auto|]. rewrite zsum_over_cons, IH; auto. intros H. apply N. right; auto.
Qed.
