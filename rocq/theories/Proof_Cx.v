(* Complex numbers as pairs of reals, finite sums of them, roots of unity. *)
From Coq Require Import ZArith List Bool Lia ZifyBool Reals Lra Ring Permutation.
From Verif Require Import Model_Base Model_Group Spec_Rep Spec_Group Proof_Base Proof_Sum.
Import ListNotations.
Open Scope Z_scope.

Definition csub (a b : R * R) : R * R := (fst a - fst b, snd a - snd b)%R.
Definition copp (a : R * R) : R * R := (- fst a, - snd a)%R.

Lemma cx_eq (a b : R * R) : fst a = fst b -> snd a = snd b -> a = b.
Proof. destruct a, b; cbn; congruence. Qed.

Lemma cx_ring : ring_theory cx0 cx1 cadd cmul csub copp (@eq (R * R)).
Proof. constructor; intros; apply cx_eq; unfold cadd, cmul, csub, copp, cx0, cx1; cbn [fst snd]; ring. Qed.
Add Ring cx_ring_inst : cx_ring.

Lemma cconj_mul a b : cconj (cmul a b) = cmul (cconj a) (cconj b).
Proof. apply cx_eq; unfold cconj, cmul; cbn [fst snd]; ring. Qed.
Lemma cconj_add a b : cconj (cadd a b) = cadd (cconj a) (cconj b).
Proof. apply cx_eq; unfold cconj, cadd; cbn [fst snd]; ring. Qed.
Lemma cconj_conj a : cconj (cconj a) = a.
Proof. apply cx_eq; unfold cconj; cbn [fst snd]; ring. Qed.
Lemma cconj_0 : cconj cx0 = cx0. Proof. apply cx_eq; unfold cconj, cx0; cbn [fst snd]; ring. Qed.
Lemma cconj_1 : cconj cx1 = cx1. Proof. apply cx_eq; unfold cconj, cx1; cbn [fst snd]; ring. Qed.
Lemma cconj_real x : cconj (creal x) = creal x. Proof. apply cx_eq; unfold cconj, creal; cbn [fst snd]; ring. Qed.
Lemma creal_mul x y : cmul (creal x) (creal y) = creal (x * y)%R.
Proof. apply cx_eq; unfold cmul, creal; cbn [fst snd]; ring. Qed.
Lemma creal_add x y : cadd (creal x) (creal y) = creal (x + y)%R.
Proof. apply cx_eq; unfold cadd, creal; cbn [fst snd]; ring. Qed.
Lemma creal_0 : creal 0 = cx0. Proof. reflexivity. Qed.
Lemma creal_1 : creal 1 = cx1. Proof. reflexivity. Qed.

(* a field: cancelling *)
Lemma cmul_cancel a b : a <> cx0 -> cmul a b = cx0 -> b = cx0.
Proof.
  intros N E. assert (cmul (cconj a) (cmul a b) = cx0) as K by (rewrite E; ring).
  assert (fst a * fst a + snd a * snd a <> 0)%R as D. { intros Z. apply N. apply cx_eq; cbn [cx0 fst snd]; nra. }
  assert (cmul (creal (fst a * fst a + snd a * snd a)) b = cx0) as K2. { rewrite <- K. apply cx_eq; unfold cmul, creal, cconj; cbn [fst snd]; ring. }
  set (d := (fst a * fst a + snd a * snd a)%R) in *. assert (E1 := f_equal fst K2). assert (E2 := f_equal snd K2). unfold cmul, creal, cx0 in E1, E2; cbn [fst snd] in E1, E2.
  apply cx_eq; cbn [cx0 fst snd]; apply (Rmult_eq_reg_l d); auto; lra.
Qed.

(* ---- sums ---- *)
Lemma csum_nil {A} (f : A -> R * R) : csum [] f = cx0. Proof. reflexivity. Qed.
Lemma csum_cons {A} x l (f : A -> R * R) : csum (x :: l) f = cadd (f x) (csum l f). Proof. reflexivity. Qed.
Lemma csum_app {A} l l' (f : A -> R * R) : csum (l ++ l') f = cadd (csum l f) (csum l' f).
Proof. induction l as [|x l IH]; cbn [app]; rewrite ?csum_nil, ?csum_cons; [ring|]. rewrite IH. ring. Qed.
Lemma csum_ext {A} l (f g : A -> R * R) : (forall x, In x l -> f x = g x) -> csum l f = csum l g.
Proof. induction l as [|x l IH]; intros H; [reflexivity|]. rewrite !csum_cons, (H x) by (left; auto). rewrite IH; auto. intros; apply H; right; auto. Qed.
Lemma csum_0 {A} l (f : A -> R * R) : (forall x, In x l -> f x = cx0) -> csum l f = cx0.
Proof. induction l as [|x l IH]; intros H; [reflexivity|]. rewrite csum_cons, (H x) by (left; auto). rewrite IH; [ring|]. intros; apply H; right; auto. Qed.
Lemma csum_plus {A} l (f g : A -> R * R) : csum l (fun x => cadd (f x) (g x)) = cadd (csum l f) (csum l g).
Proof. induction l as [|x l IH]; rewrite ?csum_nil, ?csum_cons; [ring|]. rewrite IH. ring. Qed.
Lemma csum_scal {A} l c (f : A -> R * R) : csum l (fun x => cmul c (f x)) = cmul c (csum l f).
Proof. induction l as [|x l IH]; rewrite ?csum_nil, ?csum_cons; [ring|]. rewrite IH. ring. Qed.
Lemma csum_scal_r {A} l c (f : A -> R * R) : csum l (fun x => cmul (f x) c) = cmul (csum l f) c.
Proof. induction l as [|x l IH]; rewrite ?csum_nil, ?csum_cons; [ring|]. rewrite IH. ring. Qed.
Lemma csum_swap {A B} (l : list A) (m : list B) (f : A -> B -> R * R) : csum l (fun x => csum m (fun y => f x y)) = csum m (fun y => csum l (fun x => f x y)).
Proof.
  induction l as [|x l IH]; [rewrite csum_nil; symmetry; apply csum_0; intros; reflexivity|].
  rewrite csum_cons, IH, <- csum_plus. apply csum_ext. intros; rewrite csum_cons; reflexivity.
Qed.
Lemma csum_conj {A} l (f : A -> R * R) : csum l (fun x => cconj (f x)) = cconj (csum l f).
Proof. induction l as [|x l IH]; rewrite ?csum_nil, ?csum_cons; [symmetry; apply cconj_0|]. rewrite IH, cconj_add. reflexivity. Qed.
Lemma csum_map {A B} (g : A -> B) l (f : B -> R * R) : csum (map g l) f = csum l (fun x => f (g x)).
Proof. unfold csum. rewrite map_map. reflexivity. Qed.
Lemma csum_Permutation {A} (l l' : list A) f : Permutation l l' -> csum l f = csum l' f.
Proof. intros P. induction P; rewrite ?csum_cons; try congruence; ring. Qed.
Lemma csum_const {A} (l : list A) c : csum l (fun _ => c) = cmul (creal (IZR (zlen l))) c.
Proof.
  induction l as [|x l IH]; [rewrite csum_nil; change (zlen (@nil A)) with 0%Z; rewrite creal_0; ring|]. rewrite csum_cons, IH, zlen_cons, plus_IZR, <- creal_add, creal_1. ring.
Qed.
Lemma csum_single {A} l (x : A) (f : A -> R * R) : NoDup l -> In x l -> (forall y, In y l -> y <> x -> f y = cx0) -> csum l f = f x.
Proof.
  intros N I H. induction l as [|y l IH]; [destruct I|]. rewrite csum_cons. inversion N; subst. destruct I as [->|I].
  - rewrite csum_0; [ring|]. intros z Hz. apply H; [right; auto|]. intros ->. auto.
  - rewrite IH; auto; [|intros; apply H; auto; right; auto]. rewrite (H y); [ring|left; auto|]. intros ->. auto.
Qed.
Lemma csum_reindex {A} (l : list A) (g : A -> A) (f : A -> R * R) : NoDup l -> (forall x, In x l -> In (g x) l) ->
  (forall x y, In x l -> In y l -> g x = g y -> x = y) -> csum l (fun x => f (g x)) = csum l f.
Proof.
  intros N C I. rewrite <- csum_map. apply csum_Permutation. apply NoDup_Permutation_bis.
  - clear C. induction l as [|x l IH]; [constructor|]. inversion N; subst. cbn [map]. constructor.
    + intros K. apply in_map_iff in K as (y & E & Hy). apply I in E; [|right; auto|left; auto]. subst. auto.
    + apply IH; auto. intros; apply I; auto; right; auto.
  - rewrite map_length. auto.
  - intros y Hy. apply in_map_iff in Hy as (x & <- & Hx). auto.
Qed.

Lemma upto_zrange N : upto N = zrange 0 N.
Proof. unfold upto, zrange. rewrite Z.sub_0_r. apply map_ext. intros; lia. Qed.
Lemma in_upto N x : In x (upto N) <-> 0 <= x < N.
Proof. rewrite upto_zrange. apply in_zrange. Qed.
Lemma NoDup_upto N : NoDup (upto N).
Proof. rewrite upto_zrange. apply NoDup_zrange. Qed.
Lemma zlen_upto N : 0 <= N -> zlen (upto N) = N.
Proof. intros. rewrite upto_zrange, zlen_zrange. lia. Qed.
Lemma upto_snoc N : 0 <= N -> upto (N + 1) = upto N ++ [N].
Proof. intros. rewrite !upto_zrange. apply zrange_snoc. lia. Qed.

(* ---- roots of unity ---- *)
Definition cis (x : R) : R * R := (cos x, sin x).

Lemma cis_plus x y : cis (x + y) = cmul (cis x) (cis y).
Proof. apply cx_eq; unfold cis, cmul; cbn [fst snd]; [rewrite cos_plus|rewrite sin_plus]; ring. Qed.
Lemma cis_0 : cis 0 = cx1.
Proof. apply cx_eq; unfold cis, cx1; cbn [fst snd]; [apply cos_0|apply sin_0]. Qed.
Lemma cis_conj x : cconj (cis x) = cis (- x).
Proof. apply cx_eq; unfold cis, cconj; cbn [fst snd]; [rewrite cos_neg|rewrite sin_neg]; ring. Qed.
Lemma cis_unit x : cmul (cis x) (cconj (cis x)) = cx1.
Proof. rewrite cis_conj, <- cis_plus, Rplus_opp_r. apply cis_0. Qed.
Lemma cis_2PI_nat (k : nat) x : cis (x + 2 * INR k * PI) = cis x.
Proof. apply cx_eq; unfold cis; cbn [fst snd]; [apply cos_period|apply sin_period]. Qed.
Lemma cis_2PI (k : Z) x : cis (x + 2 * PI * IZR k) = cis x.
Proof.
  destruct (Z_le_gt_dec 0 k) as [H|H].
  - rewrite <- (cis_2PI_nat (Z.to_nat k) x). f_equal. rewrite INR_IZR_INZ, Z2Nat.id by lia. ring.
  - rewrite <- (cis_2PI_nat (Z.to_nat (- k)) (x + 2 * PI * IZR k)). f_equal. rewrite INR_IZR_INZ, Z2Nat.id, opp_IZR by lia. ring.
Qed.
Lemma cis_one x : cis x = cx1 -> exists k, x = (2 * PI * IZR k)%R.
Proof.
  intros E. assert (C := f_equal fst E). unfold cis, cx1 in C; cbn [fst snd] in C.
  assert (sin (x / 2) = 0)%R as Z0.
  { pose proof (cos_2a_sin (x / 2)) as D. replace (2 * (x / 2))%R with x in D by field. rewrite C in D. nra. }
  apply sin_eq_0_0 in Z0 as (k & K). exists k. lra.
Qed.

(* cis of a multiple of the n-th part of the circle *)
Definition wn (n m : Z) : R * R := cis (2 * PI / IZR n * IZR m).
Lemma wn_add n a b : wn n (a + b) = cmul (wn n a) (wn n b).
Proof. unfold wn. rewrite <- cis_plus, plus_IZR. f_equal. ring. Qed.
Lemma wn_0 n : wn n 0 = cx1.
Proof. unfold wn. rewrite Rmult_0_r. apply cis_0. Qed.
Lemma wn_conj n m : cconj (wn n m) = wn n (- m).
Proof. unfold wn. rewrite cis_conj, opp_IZR. f_equal. ring. Qed.
Lemma wn_period n m k : n <> 0 -> wn n (m + n * k) = wn n m.
Proof. intros Hn. unfold wn. rewrite plus_IZR, mult_IZR. rewrite <- (cis_2PI k (2 * PI / IZR n * IZR m)). f_equal. field. apply not_0_IZR. auto. Qed.
Lemma wn_mod n m : 0 < n -> wn n (m mod n) = wn n m.
Proof. intros Hn. rewrite (Z.div_mod m n) at 2 by lia. rewrite Z.add_comm, wn_period by lia. reflexivity. Qed.
Lemma wn_one n m : 0 < n -> wn n m = cx1 <-> m mod n = 0.
Proof.
  intros Hn. split.
  - intros E. apply cis_one in E as (k & K). assert (IZR n <> 0)%R by (apply not_0_IZR; lia). assert (m = k * n) as ->; [|apply Z.mod_mul; lia].
    apply eq_IZR. rewrite mult_IZR. pose proof PI_neq0. apply (Rmult_eq_reg_l (2 * PI / IZR n)); [rewrite K; field; auto|]. unfold Rdiv. apply Rmult_integral_contrapositive_currified; [lra|]. apply Rinv_neq_0_compat; auto.
  - intros E. rewrite <- wn_mod, E by lia. apply wn_0.
Qed.

(* the sum of all n-th powers *)
Lemma wn_sum n m : 0 < n -> csum (upto n) (fun j => wn n (m * j)) = if m mod n =? 0 then creal (IZR n) else cx0.
Proof.
  intros Hn. destruct (Z.eqb_spec (m mod n) 0) as [E|E].
  - rewrite (csum_ext _ _ (fun _ => cx1)); [rewrite csum_const, zlen_upto by lia; ring|]. intros j _. apply wn_one; auto. rewrite Z.mul_mod, E by lia. reflexivity.
  - apply (cmul_cancel (csub (wn n m) cx1)).
    + intros K. apply E. apply (wn_one n m Hn). assert (E1 := f_equal fst K). assert (E2 := f_equal snd K). unfold csub, cx0 in E1, E2; cbn [fst snd] in E1, E2. apply cx_eq; lra.
    + assert (forall k, 0 <= k -> cmul (csub (wn n m) cx1) (csum (upto k) (fun j => wn n (m * j))) = csub (wn n (m * k)) cx1) as T.
      { intros k Hk. pattern k. apply natlike_ind; auto.
        - rewrite Z.mul_0_r, wn_0. cbn. ring.
        - intros x Hx IH. unfold Z.succ. rewrite upto_snoc, csum_app, csum_cons, csum_nil by lia. replace (m * (x + 1)) with (m * x + m) by ring. rewrite wn_add. transitivity (cadd (csub (wn n (m * x)) cx1) (cmul (csub (wn n m) cx1) (wn n (m * x)))); [rewrite <- IH; ring|ring]. }
      rewrite T by lia. rewrite (proj2 (wn_one n (m * n) Hn)) by (apply Z.mod_mul; lia). ring.
Qed.
