(* Properties C87: SnWeights, which mixes the columns of the parts of a vector, and of C74: transpositions acting on vectors. *)
From Coq Require Import ZArith List Bool Lia Reals Lra Sorting.Sorted.
From Verif Require Import Model_Base Model_Perm Model_Part Model_Comb Model_Tab Model_Irrep Model_Type Model_FFT Model_Vec Model_Weights.
From Verif Require Import Spec_Perm Spec_Part Spec_Tab Spec_Rep Spec_Four Spec_Type Spec_FFT Spec_Vec Spec_Weights.
From Verif Require Import Proof_Perm Proof_Part Proof_TabProps Proof_Weights Prop_Vec.
Import ListNotations.
Open Scope Z_scope.

(* ---- C87 ---- *)
(* SnWeights(x,y,fill) has one matrix for each irrep of x, of size x(lambda) by y(lambda), with the entries of the fill.  Asking
   for another irrep ends the process.  The multiplicities of y stay as they are, but y has the irreps of x afterwards. *)
Theorem C87_from_types : forall n x y fill, type_of n x -> type_of n y -> (forall p, In p x -> 0 <= snd p) -> (forall p, In p y -> 0 <= snd p) ->
  exists W y', sw_types x y fill = Ret (W, y') /\ (forall l, In l (map fst x) -> exists M, sw_get W l = Ret (W2 M) /\ m_n0 M = mult x l /\ m_n1 M = mult y l /\ forall i j, m_at M i j = fill l i j) /\
    (forall m l, is_part m l -> ~ In l (map fst x) -> sw_get W l = Abort) /\ type_of n y' /\ (forall l, mult y' l = mult y l) /\ (forall l, In l (map fst y') <-> In l (map fst x) \/ In l (map fst y)).
Proof. exact weights_of_types. Qed.
Print Assumptions C87_from_types.

(* the claim "the types are not changed", which the signature makes, is false: y gets every irrep of x, with multiplicity 0 *)
Theorem C87_types_unchanged_refuted : forall n x y fill W y' l, type_of n x -> type_of n y -> (forall p, In p x -> 0 <= snd p) -> (forall p, In p y -> 0 <= snd p) ->
  sw_types x y fill = Ret (W, y') -> In l (map fst x) -> ~ In l (map fst y) -> In (l, 0) y'.
Proof. exact type_changed. Qed.
Print Assumptions C87_types_unchanged_refuted.

(* W*v for a vector of type y: each part keeps its irrep, and its columns are combined with the entries of the matrix of W *)
Theorem C87_product : forall n x y fill W y' v, 1 <= n -> type_of n x -> type_of n y -> (forall p, In p x -> 0 <= snd p) -> (forall p, In p y -> 0 <= snd p) -> sw_types x y fill = Ret (W, y') ->
  (forall l, In l (map fst y) -> In l (map fst x)) -> vec_of y v ->
  exists R, sw_mul W v = Ret R /\ vec_of (map (fun p => (fst p, mult x (fst p))) y) R /\ Forall2 (mixed fill (mult x)) v R.
Proof.
  intros n x y fill W y' v Hn Tx Ty Hx Hy EW S V. destruct (mul_ok n x y fill W y' Hn Tx Ty Hx Hy EW v S V) as (R & E & F).
  exists R. split; [exact E|]. split; [exact (mixed_vec n x y fill Hn Tx Ty Hx v R F V)|exact F].
Qed.
Print Assumptions C87_product.

(* the product commutes with every permutation *)
Theorem C87_commutes : forall n x y fill W y' p v, 1 <= n -> type_of n x -> type_of n y -> (forall p, In p x -> 0 <= snd p) -> (forall p, In p y -> 0 <= snd p) -> sw_types x y fill = Ret (W, y') ->
  (forall l, In l (map fst y) -> In l (map fst x)) -> vec_of y v -> is_perm n p ->
  exists R v' R' R2, sw_mul W v = Ret R /\ sv_apply p v = Ret v' /\ sw_mul W v' = Ret R' /\ sv_apply p R = Ret R2 /\ Forall2 same_part R' R2.
Proof. intros n x y fill W y' p v Hn Tx Ty Hx Hy EW. exact (mul_commutes n x y fill W y' Hn Tx Ty Hx Hy EW p v). Qed.
Print Assumptions C87_commutes.

(* the product is additive *)
Theorem C87_additive : forall n x y fill W y' v w s, 1 <= n -> type_of n x -> type_of n y -> (forall p, In p x -> 0 <= snd p) -> (forall p, In p y -> 0 <= snd p) -> sw_types x y fill = Ret (W, y') ->
  (forall l, In l (map fst y) -> In l (map fst x)) -> vec_of y v -> vec_of y w -> sv_add v w = Ret s ->
  exists Rv Rw Rs R, sw_mul W v = Ret Rv /\ sw_mul W w = Ret Rw /\ sw_mul W s = Ret Rs /\ sv_add Rv Rw = Ret R /\ Forall2 same_part Rs R.
Proof. intros n x y fill W y' v w s Hn Tx Ty Hx Hy EW. exact (mul_add n x y fill W y' Hn Tx Ty Hx Hy EW v w s). Qed.
Print Assumptions C87_additive.

(* identity matrices change nothing *)
Theorem C87_identity : forall n x v W y', 1 <= n -> type_of n x -> (forall p, In p x -> 0 <= snd p) -> sw_types x x (fun _ i j => delta i j) = Ret (W, y') -> vec_of x v ->
  y' = x /\ exists R, sw_mul W v = Ret R /\ Forall2 same_part R v.
Proof. exact mul_identity. Qed.
Print Assumptions C87_identity.

(* two products one after the other are the product with the products of the matrices *)
Theorem C87_composition : forall n x y z f g U1 y1 U2 z1 U3 z2 v, 1 <= n -> type_of n x -> type_of n y -> type_of n z -> (forall p, In p x -> 0 <= snd p) -> (forall p, In p y -> 0 <= snd p) -> (forall p, In p z -> 0 <= snd p) ->
  map fst x = map fst y -> map fst y = map fst z ->
  sw_types x y f = Ret (U1, y1) -> sw_types y z g = Ret (U2, z1) -> sw_types x z (fun l i j => rsum (mult y l) (fun k => f l i k * g l k j)%R) = Ret (U3, z2) -> vec_of z v ->
  exists u R R', sw_mul U2 v = Ret u /\ sw_mul U1 u = Ret R /\ sw_mul U3 v = Ret R' /\ Forall2 same_part R R'.
Proof. exact mul_twice. Qed.
Print Assumptions C87_composition.

(* a vector with an irrep that W does not have ends the process *)
Theorem C87_missing_irrep : forall n x y fill W y' v, 1 <= n -> type_of n x -> type_of n y -> (forall p, In p x -> 0 <= snd p) -> (forall p, In p y -> 0 <= snd p) -> sw_types x y fill = Ret (W, y') ->
  (exists l, In l (map fst y) /\ ~ In l (map fst x)) -> vec_of y v -> sw_mul W v = Abort.
Proof. intros n x y fill W y' v Hn Tx Ty Hx Hy EW. exact (mul_missing n x y fill W y' Hn Tx Ty Hx Hy EW v). Qed.
Print Assumptions C87_missing_irrep.

(* the claim "weights made from two vectors can be multiplied with the second" is false: dims(a*b) has one index instead of two *)
Theorem C87_from_vectors_refuted : forall x y, Forall2 (fun P Q => io_lambda (sp_irr P) = io_lambda (sp_irr Q)) x y -> y <> [] -> exists W, sw_vecs x y = Ret W /\ sw_mul W y = UB.
Proof. exact vecs_undefined. Qed.
Print Assumptions C87_from_vectors_refuted.

(* weights that are never copied free each matrix once *)
Theorem C87_destructor : forall n x h, type_of n x -> exists w h', wo_new (map fst x) h = (w, h') /\ wo_dtor w h' = Ret (h ++ repeat false (length x)).
Proof. exact own_once. Qed.
Print Assumptions C87_destructor.

(* the claim "weights can be copied" is false: the copy has the same pointers, and destroying both frees them twice *)
Theorem C87_copy_refuted : forall n x h, type_of n x -> x <> [] -> forall w h' h2, wo_new (map fst x) h = (w, h') -> wo_dtor (wo_copy w) h' = Ret h2 -> wo_dtor w h2 = UB.
Proof. exact copied_twice. Qed.
Print Assumptions C87_copy_refuted.

Example C87_example_types : type_of 3 ex_type /\ (forall p, In p ex_type -> 0 <= snd p) /\ vec_of ex_type ex_vec.
Proof. destruct C63_example_vec as (T & V). split; [exact T|]. split; [intros p [<-|[<-|[]]]; cbn; lia|exact V]. Qed.
(* one column instead of the two of [2,1]: their sum *)
Example C87_example_product : exists W y' R, sw_types [([3], 1); ([2; 1], 1)] ex_type (fun _ _ _ => 1%R) = Ret (W, y') /\ y' = ex_type /\ sw_mul W ex_vec = Ret R /\
  map (fun P => (io_lambda (sp_irr P), m_n0 (sp_mat P), m_n1 (sp_mat P))) R = [([3], 1, 1); ([2; 1], 2, 1)] /\
  forall Q, nth_error R 1 = Some Q -> m_at (sp_mat Q) 0 0 = 1%R /\ m_at (sp_mat Q) 1 0 = 5%R.
Proof.
  eexists _, _, _. split; [reflexivity|]. split; [reflexivity|]. split; [reflexivity|]. split; [reflexivity|]. intros Q E. injection E as <-. lazy -[Rplus Rmult Ropp IZR]. split; lra.
Qed.
Example C87_example_changed : exists W, sw_types [([2], 1)] [([1; 1], 3)] (fun _ _ _ => 1%R) = Ret (W, [([2], 0); ([1; 1], 3)]).
Proof. eexists. vm_compute. reflexivity. Qed.
Example C87_example_copy : exists w h' h2, wo_new (map fst ex_type) [] = (w, h') /\ wo_dtor (wo_copy w) h' = Ret h2 /\ wo_dtor w h2 = UB.
Proof. eexists _, _, _. split; [reflexivity|]. split; reflexivity. Qed.

(* ---- C74 ---- *)
(* apply(Transposition(a,b)) on a vector is the action of the transposition *)
Theorem C74_transposition : forall n tau v a b, 1 <= n -> type_of n tau -> vec_of tau v -> 1 <= a <= n -> 1 <= b <= n ->
  exists c v1 v2, p_transposition n a b = Ret c /\ sv_apply_transp (mkTransp a b) v = Ret v1 /\ sv_apply c v = Ret v2 /\ Forall2 same_part v1 v2.
Proof. exact apply_transp_vec. Qed.
Print Assumptions C74_transposition.
Example C74_example_transposition : exists v', sv_apply_transp (mkTransp 1 3) ex_vec = Ret v'.
Proof. destruct C63_example_vec as (T & V). destruct (C74_transposition 3 ex_type ex_vec 1 3 ltac:(lia) T V ltac:(lia) ltac:(lia)) as (c & v1 & v2 & _ & E & _). eauto. Qed.
