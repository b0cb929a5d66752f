(* Properties C38, C39: orthogonality relations and restriction, Sn/SnIrrepObj.hpp. *)
From Coq Require Import ZArith List Bool Lia Reals.
From Verif Require Import Model_Base Model_Perm Model_Sn Model_Part Model_Comb Model_Tab Model_Irrep.
From Verif Require Import Spec_Perm Spec_Part Spec_Tab Spec_Rep Spec_Four.
From Verif Require Import Proof_Base Proof_Perm Proof_PermProps Proof_Part Proof_TabProps Proof_Irrep Proof_Mat Proof_IrrepProps Proof_Schur Proof_Restr.
Import ListNotations.
Open Scope Z_scope.

(* the sum over the group of rho_lambda(p)[i,j] * rho_lambda'(p)[k,m] *)
Theorem C38_matrix_elements_orthogonal : forall n l l' o o' L A B,
  is_part n l -> is_part n l' -> 1 <= n -> irr_new l = Ret o -> irr_new l' = Ret o' -> lists_Sn n L ->
  (forall p, In p L -> irr_matrix o p = Ret (A p)) -> (forall p, In p L -> irr_matrix o' p = Ret (B p)) ->
  forall i j k m, 0 <= i < io_d o -> 0 <= j < io_d o -> 0 <= k < io_d o' -> 0 <= m < io_d o' ->
  (l = l' -> i = k -> j = m -> sum_over L (fun p => m_at (A p) i j * m_at (B p) k m)%R = (INR (fact (Z.to_nat n)) / IZR (io_d o))%R) /\
  (~ (l = l' /\ i = k /\ j = m) -> sum_over L (fun p => m_at (A p) i j * m_at (B p) k m)%R = 0%R).
Proof. exact schur_fact. Qed.
Print Assumptions C38_matrix_elements_orthogonal.

Theorem C38_characters_orthogonal : forall n l l' o o' L A B,
  is_part n l -> is_part n l' -> 1 <= n -> irr_new l = Ret o -> irr_new l' = Ret o' -> lists_Sn n L ->
  (forall p, In p L -> irr_matrix o p = Ret (A p)) -> (forall p, In p L -> irr_matrix o' p = Ret (B p)) ->
  sum_over L (fun p => trace (io_d o) (m_at (A p)) * trace (io_d o') (m_at (B p)))%R =
    (if list_eq_dec Z.eq_dec l l' then INR (fact (Z.to_nat n)) else 0)%R.
Proof. exact characters_orthogonal. Qed.
Print Assumptions C38_characters_orthogonal.

(* the elements of the group, in the order of Sn::operator[], are such a list L *)
Theorem C38_the_group_is_a_list : forall n, 1 <= n ->
  exists L, lists_Sn n L /\ zlen L = zfact n /\ forall e, 0 <= e < zfact n -> sn_element n e = Ret (znth L e []).
Proof. exact Sn_listed. Qed.
Print Assumptions C38_the_group_is_a_list.

Example C38_example : exists o o' L A B, is_part 5 [3;2] /\ is_part 5 [2;2;1] /\ irr_new [3;2] = Ret o /\ irr_new [2;2;1] = Ret o' /\ lists_Sn 5 L /\
  (forall p, In p L -> irr_matrix o p = Ret (A p)) /\ (forall p, In p L -> irr_matrix o' p = Ret (B p)).
Proof.
  assert (is_part 5 [3;2]) as P by (apply decb_part; reflexivity). assert (is_part 5 [2;2;1]) as P' by (apply decb_part; reflexivity).
  destruct (irr_new_spec 5 [3;2] P ltac:(lia)) as (o & E & _). destruct (irr_new_spec 5 [2;2;1] P' ltac:(lia)) as (o' & E' & _).
  destruct (Sn_listed 5 ltac:(lia)) as (L & HL & _).
  exists o, o', L, (fun p => match irr_matrix o p with Ret M => M | _ => mident 0 end), (fun p => match irr_matrix o' p with Ret M => M | _ => mident 0 end).
  split; auto. split; auto. split; auto. split; auto. split; auto. split; intros p Hp; apply HL in Hp.
  - destruct (matrix_ok 5 [3;2] o (irr_new_good _ _ _ P ltac:(lia) E) p Hp) as (M & -> & _). reflexivity.
  - destruct (matrix_ok 5 [2;2;1] o' (irr_new_good _ _ _ P' ltac:(lia) E') p Hp) as (M & -> & _). reflexivity.
Qed.

(* the blocks are the irreps of the shapes below lambda, in the order of foreach_sub *)
Theorem C39_restriction_is_block_diagonal : forall n lambda o sigma,
  is_part n lambda -> 2 <= n -> irr_new lambda = Ret o -> is_perm n sigma -> img sigma n = n ->
  exists mus os M Bs, ip_foreach_sub lambda = Ret mus /\ Forall2 (fun mu o' => irr_new mu = Ret o') mus os /\
    irr_matrix o sigma = Ret M /\ is_perm (n - 1) (removelast sigma) /\ Forall2 (fun o' B => irr_matrix o' (removelast sigma) = Ret B) os Bs /\
    fold_right Z.add 0 (map io_d os) = io_d o /\
    block_diagonal (map io_d os) (fun c => m_at (nth c Bs M)) (m_at M).
Proof. exact restriction_fix. Qed.
Print Assumptions C39_restriction_is_block_diagonal.

Example C39_example : is_part 5 [3;1;1] /\ is_perm 5 [2;3;4;1;5] /\ img [2;3;4;1;5] 5 = 5 /\ removelast [2;3;4;1;5] = [2;3;4;1] /\
  ip_foreach_sub [3;1;1] = Ret [[3;1];[2;1;1]].
Proof.
  split; [apply decb_part; reflexivity|]. split; [apply (check_is_perm [2;3;4;1;5]); reflexivity|]. split; [reflexivity|]. split; [reflexivity|vm_compute; reflexivity].
Qed.
