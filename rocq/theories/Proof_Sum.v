(* Finite sums of reals over lists. *)
From Coq Require Import ZArith List Bool Lia ZifyBool ZifyNat Reals Lra Permutation.
From Verif Require Import Model_Base Proof_Base Spec_Rep.
Import ListNotations.

Definition lsum {A} (l : list A) (f : A -> R) : R := fold_right Rplus 0%R (map f l).

Open Scope R_scope.

Lemma lsum_nil {A} (f : A -> R) : lsum [] f = 0. Proof. reflexivity. Qed.
Lemma lsum_cons {A} x l (f : A -> R) : lsum (x :: l) f = f x + lsum l f. Proof. reflexivity. Qed.

Lemma lsum_app {A} l l' (f : A -> R) : lsum (l ++ l') f = lsum l f + lsum l' f.
Proof. induction l as [|x l IH]; cbn [app]; rewrite ?lsum_nil, ?lsum_cons; [ring|]. rewrite IH. ring. Qed.

Lemma lsum_ext {A} l (f g : A -> R) : (forall x, In x l -> f x = g x) -> lsum l f = lsum l g.
Proof.
  induction l as [|x l IH]; intros H; [reflexivity|]. rewrite !lsum_cons. rewrite (H x) by (left; auto). rewrite IH; auto. intros; apply H; right; auto.
Qed.

Lemma lsum_0 {A} l (f : A -> R) : (forall x, In x l -> f x = 0) -> lsum l f = 0.
Proof.
  induction l as [|x l IH]; intros H; [reflexivity|]. rewrite lsum_cons. rewrite (H x) by (left; auto). rewrite IH; [ring|]. intros; apply H; right; auto.
Qed.

Lemma lsum_plus {A} l (f g : A -> R) : lsum l (fun x => f x + g x) = lsum l f + lsum l g.
Proof. induction l as [|x l IH]; rewrite ?lsum_nil, ?lsum_cons; [ring|]. rewrite IH. ring. Qed.

Lemma lsum_minus {A} l (f g : A -> R) : lsum l (fun x => f x - g x) = lsum l f - lsum l g.
Proof. induction l as [|x l IH]; rewrite ?lsum_nil, ?lsum_cons; [ring|]. rewrite IH. ring. Qed.

Lemma lsum_opp {A} l (f : A -> R) : lsum l (fun x => - f x) = - lsum l f.
Proof. induction l as [|x l IH]; rewrite ?lsum_nil, ?lsum_cons; [ring|]. rewrite IH. ring. Qed.

Lemma lsum_scal {A} l c (f : A -> R) : lsum l (fun x => c * f x) = c * lsum l f.
Proof. induction l as [|x l IH]; rewrite ?lsum_nil, ?lsum_cons; [ring|]. rewrite IH. ring. Qed.

Lemma lsum_scal_r {A} l c (f : A -> R) : lsum l (fun x => f x * c) = lsum l f * c.
Proof. induction l as [|x l IH]; rewrite ?lsum_nil, ?lsum_cons; [ring|]. rewrite IH. ring. Qed.

Lemma lsum_const {A} (l : list A) c : lsum l (fun _ => c) = IZR (zlen l) * c.
Proof.
  induction l as [|x l IH]; [rewrite lsum_nil; change (zlen (@nil A)) with 0%Z; ring|]. rewrite lsum_cons, IH, zlen_cons, plus_IZR. ring.
Qed.

Lemma lsum_swap {A B} (l : list A) (m : list B) (f : A -> B -> R) :
  lsum l (fun x => lsum m (fun y => f x y)) = lsum m (fun y => lsum l (fun x => f x y)).
Proof.
  induction l as [|x l IH]; [rewrite lsum_nil; symmetry; apply lsum_0; intros; reflexivity|].
  rewrite lsum_cons, IH, <- lsum_plus. apply lsum_ext. intros; rewrite lsum_cons; reflexivity.
Qed.

Lemma lsum_Permutation {A} (l l' : list A) f : Permutation l l' -> lsum l f = lsum l' f.
Proof. intros P. induction P; rewrite ?lsum_cons; try congruence; try lra. Qed.

Lemma lsum_map {A B} (g : A -> B) l (f : B -> R) : lsum (map g l) f = lsum l (fun x => f (g x)).
Proof. unfold lsum. rewrite map_map. reflexivity. Qed.

Lemma lsum_flat_map {A B} (g : A -> list B) l (f : B -> R) : lsum (flat_map g l) f = lsum l (fun x => lsum (g x) f).
Proof. induction l as [|x l IH]; [reflexivity|]. cbn [flat_map]. rewrite lsum_app, lsum_cons, IH. reflexivity. Qed.

(* one term of a sum without repetitions *)
Lemma lsum_single {A} l (x : A) (f : A -> R) : NoDup l -> In x l -> (forall y, In y l -> y <> x -> f y = 0) -> lsum l f = f x.
Proof.
  intros N I H. induction l as [|y l IH]; [destruct I|]. rewrite lsum_cons. inversion N; subst. destruct I as [->|I].
  - rewrite lsum_0; [ring|]. intros z Hz. apply H; [right; auto|]. intros ->. auto.
  - rewrite IH; auto; [|intros; apply H; auto; right; auto]. rewrite (H y); [ring|left; auto|]. intros ->. auto.
Qed.

(* reindexing by an injection of the list into itself *)
Lemma lsum_reindex {A} (l : list A) (g : A -> A) (f : A -> R) : NoDup l -> (forall x, In x l -> In (g x) l) ->
  (forall x y, In x l -> In y l -> g x = g y -> x = y) -> lsum l (fun x => f (g x)) = lsum l f.
Proof.
  intros N C I. rewrite <- lsum_map. apply lsum_Permutation. apply NoDup_Permutation_bis.
  - clear C. induction l as [|x l IH]; [constructor|]. inversion N; subst. cbn [map]. constructor.
    + intros K. apply in_map_iff in K as (y & E & Hy). apply I in E; [|right; auto|left; auto]. subst. auto.
    + apply IH; auto. intros; apply I; auto; right; auto.
  - rewrite map_length. auto.
  - intros y Hy. apply in_map_iff in Hy as (x & <- & Hx). auto.
Qed.

Lemma rsum_lsum n f : rsum n f = lsum (zrange 0 n) f.
Proof. unfold rsum, lsum, zrange. rewrite map_map, Z.sub_0_r. reflexivity. Qed.

Lemma rsum_ext n f g : (forall i, (0 <= i < n)%Z -> f i = g i) -> rsum n f = rsum n g.
Proof. intros H. rewrite !rsum_lsum. apply lsum_ext. intros x Hx. apply in_zrange in Hx. auto. Qed.

Lemma rsum_delta n (f : Z -> R) i : (0 <= i < n)%Z -> rsum n (fun k => f k * delta k i) = f i.
Proof.
  intros Hi. rewrite rsum_lsum. rewrite (lsum_single _ i).
  - unfold delta. destruct (Z.eq_dec i i); [ring|contradiction].
  - apply NoDup_zrange.
  - apply in_zrange. auto.
  - intros y _ Hy. unfold delta. destruct (Z.eq_dec y i); [contradiction|ring].
Qed.
