(* C63, C74: vectors of irreps: restriction, induction, concatenation, and the action of the group. *)
From Coq Require Import ZArith List Bool Lia Reals Lra Sorting.Sorted.
From Verif Require Import Model_Base Model_Perm Model_Part Model_Comb Model_Tab Model_Irrep Model_Type Model_FFT Model_Vec.
From Verif Require Import Spec_Perm Spec_Part Spec_Tab Spec_Rep Spec_Four Spec_Type Spec_FFT Spec_Vec.
From Verif Require Import Proof_Perm Proof_Part Proof_TabProps Proof_Perm Proof_PartProps Proof_Type Proof_Vec2 Proof_Vec3 Proof_Vec5 Proof_Vec6 Proof_Vec7 Proof_Vec8.
Import ListNotations.
Open Scope Z_scope.

(* ---- C63 ---- *)

(* down: one part for each partition one box smaller, all with the same columns.  The row of a tableau t goes to the
   row of t without n, and nothing else is in the result. *)
Theorem C63_down : forall n l m P, is_part n l -> 2 <= n -> part_of l m P ->
  exists mus V, ip_foreach_sub l = Ret mus /\ sv_down P = Ret V /\ vec_of (map (fun mu => (mu, m)) mus) V /\
    (forall t j x, at_tableau P t j x -> exists Q, In Q V /\ at_tableau Q (erase n t) j x) /\
    (forall Q u j x, In Q V -> at_tableau Q u j x -> exists t, erase n t = u /\ at_tableau P t j x).
Proof. exact down_vec. Qed.
Print Assumptions C63_down.

(* up: a vector of type tau.  Row t and column j of the part for l is row (t without n) of the part for the smaller shape,
   in the column that follows those used by the entries of tau before l. *)
Theorem C63_up : forall n tau sg v, 2 <= n -> type_of n tau -> (forall p, In p tau -> 0 <= snd p) ->
  vec_of sg v -> Forall (is_part (n - 1)) (map fst sg) -> NoDup (map fst sg) ->
  (forall l m mu, In (l, m) tau -> is_part (n - 1) mu -> contained mu l -> exists k, In (mu, k) sg /\ columns_used tau mu <= k) ->
  exists R, sv_up tau v = Ret R /\ vec_of tau R /\
    forall pre l m post, tau = pre ++ (l, m) :: post -> exists P, nth_error R (length pre) = Some P /\
      forall t j x, at_tableau P t j x <-> 0 <= j < m /\ standard l t /\ exists Q, In Q v /\ at_tableau Q (erase n t) (columns_used pre (io_lambda (sp_irr Q)) + j) x.
Proof. exact up_vec. Qed.
Print Assumptions C63_up.

(* cat: the columns of all the parts for a partition, one after the other *)
Theorem C63_cat : forall n vs, 1 <= n -> (forall v P, In v vs -> In P v -> exists l m, is_part n l /\ part_of l m P) ->
  exists tau R, sv_cat vs = Ret R /\ type_of n tau /\ vec_of tau R /\
    (forall l, In l (map fst tau) <-> exists P, In P (concat vs) /\ io_lambda (sp_irr P) = l) /\ (forall l, mult tau l = columns_of (concat vs) l) /\
    forall Q t c x, In Q R -> (at_tableau Q t c x <-> exists a P b j, concat vs = a ++ P :: b /\ io_lambda (sp_irr P) = io_lambda (sp_irr Q) /\ c = columns_of a (io_lambda (sp_irr P)) + j /\ at_tableau P t j x).
Proof. exact cat_vec. Qed.
Print Assumptions C63_cat.

Theorem C63_get_type : forall n tau v, 1 <= n -> type_of n tau -> vec_of tau v -> sv_type v = Ret tau.
Proof. exact type_vec. Qed.
Print Assumptions C63_get_type.

(* restricting every part and collecting the results gives a vector of the restricted type; up makes the old vector of it *)
Theorem C63_up_of_down : forall n tau w, 2 <= n -> type_of n tau -> vec_of tau w ->
  exists Vs V sg R, Forall2 (fun P V => sv_down P = Ret V) w Vs /\ sv_cat Vs = Ret V /\ ty_down tau = Ret sg /\ vec_of sg V /\
    sv_up tau V = Ret R /\ Forall2 same_part R w.
Proof. exact there_and_back. Qed.
Print Assumptions C63_up_of_down.

Theorem C63_down_of_up : forall n tau sg V, 2 <= n -> type_of n tau -> (forall p, In p tau -> 0 <= snd p) -> ty_down tau = Ret sg -> vec_of sg V ->
  exists R Vs V', sv_up tau V = Ret R /\ vec_of tau R /\ Forall2 (fun P W => sv_down P = Ret W) R Vs /\ sv_cat Vs = Ret V' /\ Forall2 same_part V' V.
Proof. exact back_and_there. Qed.
Print Assumptions C63_down_of_up.

(* both maps commute with the permutations that fix n *)
Theorem C63_down_commutes : forall n l m P q, is_part n l -> 2 <= n -> part_of l m P -> is_perm (n - 1) q ->
  exists P' V V' W, sv_apply (q ++ [n]) [P] = Ret [P'] /\ sv_down P = Ret V /\ sv_down P' = Ret V' /\ sv_apply q V = Ret W /\ Forall2 same_part V' W.
Proof. exact down_equivariant. Qed.
Print Assumptions C63_down_commutes.

Theorem C63_up_commutes : forall n tau sg v q, 2 <= n -> type_of n tau -> (forall p, In p tau -> 0 <= snd p) ->
  vec_of sg v -> Forall (is_part (n - 1)) (map fst sg) -> NoDup (map fst sg) ->
  (forall l m mu, In (l, m) tau -> is_part (n - 1) mu -> contained mu l -> exists k, In (mu, k) sg /\ columns_used tau mu <= k) -> is_perm (n - 1) q ->
  exists v' R R' W, sv_apply q v = Ret v' /\ sv_up tau v = Ret R /\ sv_up tau v' = Ret R' /\ sv_apply (q ++ [n]) R = Ret W /\ Forall2 same_part R' W.
Proof. exact up_equivariant. Qed.
Print Assumptions C63_up_commutes.

(* accumulate_up adds what up would return, from the columns in offs on, and moves offs behind it *)
Theorem C63_accumulate_up : forall n tau sg v rho R0 o0, 2 <= n -> type_of n tau -> (forall p, In p tau -> 0 <= snd p) ->
  vec_of sg v -> Forall (is_part (n - 1)) (map fst sg) -> NoDup (map fst sg) ->
  (forall l m mu, In (l, m) tau -> is_part (n - 1) mu -> contained mu l -> exists k, In (mu, k) sg /\ columns_used tau mu <= k) ->
  type_of n rho -> vec_of rho R0 -> type_of n o0 ->
  (forall l m, In (l, m) tau -> 0 <= mult o0 l /\ exists M, In (l, M) rho /\ mult o0 l + m <= M) ->
  exists U R o, sv_up tau v = Ret U /\ sv_accumulate_up R0 o0 v tau = Ret (R, o) /\ vec_of rho R /\ type_of n o /\ (forall l, mult o l = mult o0 l + mult tau l) /\
    Forall2 (fun P P' =>
      (forall Q i j, In Q U -> sp_irr Q = sp_irr P -> 0 <= i < m_n0 (sp_mat Q) -> 0 <= j < m_n1 (sp_mat Q) ->
        m_at (sp_mat P') i (mult o0 (io_lambda (sp_irr P)) + j) = (m_at (sp_mat P) i (mult o0 (io_lambda (sp_irr P)) + j)%Z + m_at (sp_mat Q) i j)%R) /\
      (forall i j, (forall Q, In Q U -> sp_irr Q = sp_irr P -> ~ (0 <= i < m_n0 (sp_mat Q) /\ 0 <= j - mult o0 (io_lambda (sp_irr P)) < m_n1 (sp_mat Q))) ->
        m_at (sp_mat P') i j = m_at (sp_mat P) i j)) R0 R.
Proof. exact accumulate_vec. Qed.
Print Assumptions C63_accumulate_up.

(* the part [2,1] with two columns and entries 2i+j *)
Definition ex_part : spart := mkSpart (mkIrrep 3 [2; 1] [[[1; 2]; [3]]; [[1; 3]; [2]]]) (mkMat 2 2 (fun i j => IZR (2 * i + j))).
Definition ex_type : list (list Z * Z) := [([3], 1); ([2; 1], 2)].
Definition ex_vec : list spart := [mkSpart (mkIrrep 3 [3] [[[1; 2; 3]]]) (mkMat 1 1 (fun _ _ => 5%R)); ex_part].

Example C63_example_part : part_of [2; 1] 2 ex_part.
Proof. split; [vm_compute; reflexivity|]. split; [reflexivity|]. split; [reflexivity|lia]. Qed.
Example C63_example_vec : type_of 3 ex_type /\ vec_of ex_type ex_vec.
Proof.
  split.
  - split; [apply SSorted_cons; [apply SSorted_cons; [apply SSorted_nil|apply Forall_nil]|apply Forall_cons; [apply lex_cons; lia|apply Forall_nil]]|].
    apply Forall_cons; [apply decb_part; reflexivity|apply Forall_cons; [apply decb_part; reflexivity|apply Forall_nil]].
  - apply Forall2_cons; [split; [vm_compute; reflexivity|split; [reflexivity|split; [reflexivity|cbn; lia]]]|]. apply Forall2_cons; [apply C63_example_part|apply Forall2_nil].
Qed.
Example C63_example_erase : erase 3 [[1; 2]; [3]] = [[1; 2]] /\ erase 3 [[1; 3]; [2]] = [[1]; [2]] /\ erase 3 [[1; 2; 3]] = [[1; 2]].
Proof. split; [|split]; reflexivity. Qed.
Example C63_example_row : at_tableau ex_part [[1; 3]; [2]] 1 3%R.
Proof. split; [cbn; lia|]. exists 1%nat. split; reflexivity. Qed.
(* the row of [1 3 / 2] of ex_part is the row of [1 / 2] of the result *)
Example C63_example_down : exists V Q, sv_down ex_part = Ret V /\ In Q V /\ at_tableau Q [[1]; [2]] 1 3%R.
Proof.
  destruct (C63_down 3 [2; 1] 2 ex_part) as (mus & V & _ & E & _ & H & _); [apply decb_part; reflexivity|lia|apply C63_example_part|].
  destruct (H _ _ _ C63_example_row) as (Q & HQ & K). exists V, Q. auto.
Qed.
Example C63_example_restricted : ty_down ex_type = Ret [([2], 3); ([1; 1], 2)] /\ columns_used ex_type [2] = 3.
Proof. split; vm_compute; reflexivity. Qed.

(* the trivial part of S_2 is added to the first part of ex_vec *)
Example C63_example_accumulate : exists R o P, sv_accumulate_up ex_vec [] [mkSpart (mkIrrep 2 [2] [[[1; 2]]]) (mkMat 1 1 (fun _ _ => 7%R))] [([3], 1)] = Ret (R, o) /\
  nth_error R 0 = Some P /\ m_at (sp_mat P) 0 0 = (5 + 7)%R /\ mult o [3] = 1.
Proof.
  destruct C63_example_vec as (T & V).
  destruct (C63_accumulate_up 3 [([3], 1)] [([2], 1)] [mkSpart (mkIrrep 2 [2] [[[1; 2]]]) (mkMat 1 1 (fun _ _ => 7%R))] ex_type ex_vec []) as (U & R & o & EU & EA & VR & To & Mo & F); auto.
  - lia.
  - split; [apply SSorted_cons; [apply SSorted_nil|apply Forall_nil]|apply Forall_cons; [apply decb_part; reflexivity|apply Forall_nil]].
  - intros p [<-|[]]. cbn. lia.
  - apply Forall2_cons; [split; [vm_compute; reflexivity|split; [reflexivity|split; [reflexivity|cbn; lia]]]|apply Forall2_nil].
  - apply Forall_cons; [apply decb_part; reflexivity|apply Forall_nil].
  - apply NoDup_cons; [intros []|apply NoDup_nil].
  - intros l m mu [E|[]] H1 H2. injection E as <- <-. assert (In mu [[2]]) as I by (apply (subs_in 3 [3] mu); [apply decb_part; reflexivity|lia|auto]).
    destruct I as [<-|[]]. exists 1. split; [left; auto|]. cbn. lia.
  - split; [apply SSorted_nil|apply Forall_nil].
  - intros l m [E|[]]. injection E as <- <-. split; [cbn; lia|]. exists 1. split; [left; auto|cbn; lia].
  - inversion F as [|P P' v0 R' (H & _) F']; subst. exists (P' :: R'), o, P'. split; [auto|]. split; [reflexivity|]. split; [|rewrite Mo; reflexivity].
    vm_compute in EU. apply (f_equal (fun x => match x with Ret u => u | _ => [] end)) in EU. cbv beta iota in EU.
    destruct U as [|Q U]; [discriminate|]. injection EU as EQ EU.
    specialize (H Q 0 0 (or_introl eq_refl)). rewrite <- EQ in H. cbn in H. rewrite H by (try reflexivity; lia). lra.
Qed.

(* ---- C74 ---- *)

(* apply multiplies each part by the matrix of the permutation and keeps the type *)
Theorem C74_apply : forall n tau v p, 1 <= n -> type_of n tau -> vec_of tau v -> is_perm n p ->
  exists v', sv_apply p v = Ret v' /\ vec_of tau v' /\ Forall2 (fun Q Q' => exists M, irr_matrix (sp_irr Q) p = Ret M /\
    agree (io_d (sp_irr Q)) (m_n1 (sp_mat Q)) (m_at (sp_mat Q')) (mprod (io_d (sp_irr Q)) (m_at M) (m_at (sp_mat Q)))) v v'.
Proof. exact apply_vec. Qed.
Print Assumptions C74_apply.

Theorem C74_identity : forall n tau v e, 1 <= n -> type_of n tau -> vec_of tau v -> is_identity n e -> exists v', sv_apply e v = Ret v' /\ Forall2 same_part v' v.
Proof. exact apply_identity. Qed.
Print Assumptions C74_identity.

Theorem C74_product : forall n tau v a b c, 1 <= n -> type_of n tau -> vec_of tau v -> is_perm n a -> is_perm n b -> is_mult n a b c ->
  exists vb vab vc, sv_apply b v = Ret vb /\ sv_apply a vb = Ret vab /\ sv_apply c v = Ret vc /\ Forall2 same_part vab vc.
Proof. exact apply_product. Qed.
Print Assumptions C74_product.

Theorem C74_cycle : forall n tau v a b, 1 <= n -> type_of n tau -> vec_of tau v -> 1 <= a <= n -> 1 <= b <= n ->
  exists c v1 v2, p_contiguous_cycle n a b = Ret c /\ sv_apply_cycle (mkCyc a b) v = Ret v1 /\ sv_apply c v = Ret v2 /\ Forall2 same_part v1 v2.
Proof. exact apply_cycle_vec. Qed.
Print Assumptions C74_cycle.

Theorem C74_cycle_inverse : forall n tau v a b, 1 <= n -> type_of n tau -> vec_of tau v -> 1 <= a -> a <= b -> b <= n ->
  exists c v1 v2, p_contiguous_cycle n a b = Ret c /\ sv_apply_cycle (mkCyc a b) v = Ret v1 /\ sv_apply_cycle_inv (mkCyc a b) v1 = Ret v2 /\ Forall2 same_part v2 v.
Proof. exact apply_cycle_inv_vec. Qed.
Print Assumptions C74_cycle_inverse.

(* vectors of the same type are added part by part; the action is additive *)
Theorem C74_add : forall n tau v y, 1 <= n -> type_of n tau -> vec_of tau v -> vec_of tau y ->
  exists w, sv_add v y = Ret w /\ vec_of tau w /\
    forall k P Q, nth_error v k = Some P -> nth_error y k = Some Q -> exists S, nth_error w k = Some S /\ sp_irr S = sp_irr P /\ forall i j, m_at (sp_mat S) i j = (m_at (sp_mat P) i j + m_at (sp_mat Q) i j)%R.
Proof. exact add_vec. Qed.
Print Assumptions C74_add.

Theorem C74_apply_additive : forall n tau v y p, 1 <= n -> type_of n tau -> vec_of tau v -> vec_of tau y -> is_perm n p ->
  exists s sp vp yp w, sv_add v y = Ret s /\ sv_apply p s = Ret sp /\ sv_apply p v = Ret vp /\ sv_apply p y = Ret yp /\ sv_add vp yp = Ret w /\ Forall2 same_part sp w.
Proof. exact apply_add. Qed.
Print Assumptions C74_apply_additive.

(* a permutation of the wrong size, or a vector with another number of parts, ends the process *)
Theorem C74_wrong_size : forall n tau v p, 1 <= n -> type_of n tau -> vec_of tau v -> v <> [] -> Z.of_nat (length p) <> n -> sv_apply p v = Abort.
Proof. exact apply_wrong_size. Qed.
Print Assumptions C74_wrong_size.

Theorem C74_add_wrong_length : forall v y, Z.of_nat (length v) <> Z.of_nat (length y) -> sv_add v y = Abort.
Proof. exact add_mismatch. Qed.
Print Assumptions C74_add_wrong_length.

Example C74_example : is_perm 3 [2; 3; 1] /\ exists v', sv_apply [2; 3; 1] ex_vec = Ret v' /\ vec_of ex_type v'.
Proof.
  assert (is_perm 3 [2; 3; 1]) as H by (apply (check_is_perm [2; 3; 1]); reflexivity). split; [exact H|].
  destruct C63_example_vec as (T & V). destruct (C74_apply 3 ex_type ex_vec [2; 3; 1] ltac:(lia) T V H) as (v' & E & K & _). exists v'. auto.
Qed.
Example C74_example_wrong : sv_apply [2; 1] ex_vec = Abort.
Proof. reflexivity. Qed.
