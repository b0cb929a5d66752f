(* Property C75: the tensor product of two irreps, Sn/SnProductRepresentation.hpp. *)
From Coq Require Import ZArith List Bool Lia Reals Lra.
From Verif Require Import Model_Base Model_Perm Model_Part Model_Comb Model_Tab Model_Irrep Model_Prod.
From Verif Require Import Spec_Perm Spec_Part Spec_Tab Spec_Rep Spec_Prod.
From Verif Require Import Proof_Base Proof_Perm Proof_PermProps Proof_Part Proof_TabProps Proof_Irrep Proof_IrrepProps Proof_Prod.
Import ListNotations.
Open Scope Z_scope.

(* apply(A,tau) multiplies the middle index by the Kronecker product of the two matrices of the transposition (tau,tau+1) *)
Theorem C75_apply : forall n lambda0 lambda1 o0 o1 tau T, is_part n lambda0 -> is_part n lambda1 -> irr_new lambda0 = Ret o0 -> irr_new lambda1 = Ret o1 ->
  1 <= tau < n -> t_n1 T = pr_d o0 o1 -> 0 <= t_n0 T -> 0 <= t_n2 T ->
  exists t M0 M1 T', p_transposition n tau (tau + 1) = Ret t /\ irr_matrix o0 t = Ret M0 /\ irr_matrix o1 t = Ret M1 /\ pr_apply o0 o1 tau T = Ret T' /\
    t_n0 T' = t_n0 T /\ t_n1 T' = t_n1 T /\ t_n2 T' = t_n2 T /\
    forall a i b, 0 <= a < t_n0 T -> 0 <= i < pr_d o0 o1 -> 0 <= b < t_n2 T ->
      t_at T' a i b = rsum (pr_d o0 o1) (fun k => (kronecker (io_d o1) (m_at M0) (m_at M1) i k * t_at T a k b)%R).
Proof. exact product_apply. Qed.
Print Assumptions C75_apply.

(* apply(A,cycle) multiplies it by that of the contiguous cycle, in either direction *)
Theorem C75_cycle : forall n lambda0 lambda1 o0 o1 a b T, is_part n lambda0 -> is_part n lambda1 -> irr_new lambda0 = Ret o0 -> irr_new lambda1 = Ret o1 ->
  1 <= a <= n -> 1 <= b <= n -> t_n1 T = pr_d o0 o1 -> 0 <= t_n0 T -> 0 <= t_n2 T ->
  exists t M0 M1 T', p_contiguous_cycle n a b = Ret t /\ irr_matrix o0 t = Ret M0 /\ irr_matrix o1 t = Ret M1 /\ pr_cycle o0 o1 (mkCyc a b) T = Ret T' /\
    t_n0 T' = t_n0 T /\ t_n1 T' = t_n1 T /\ t_n2 T' = t_n2 T /\
    forall x i y, 0 <= x < t_n0 T -> 0 <= i < pr_d o0 o1 -> 0 <= y < t_n2 T ->
      t_at T' x i y = rsum (pr_d o0 o1) (fun k => (kronecker (io_d o1) (m_at M0) (m_at M1) i k * t_at T x k y)%R).
Proof. exact product_cycle. Qed.
Print Assumptions C75_cycle.

(* JucysMurphy(k) is the sum of the matrices of the transpositions (a k), a<k, in the product *)
Theorem C75_jucys_murphy : forall n lambda0 lambda1 o0 o1 k, is_part n lambda0 -> is_part n lambda1 -> irr_new lambda0 = Ret o0 -> irr_new lambda1 = Ret o1 ->
  1 <= k -> k <= n ->
  exists M A B, pr_jm o0 o1 k = Ret M /\ m_n0 M = io_d o0 * io_d o1 /\ m_n1 M = io_d o0 * io_d o1 /\
    (forall a, 1 <= a < k -> exists t, p_transposition n a k = Ret t /\ irr_matrix o0 t = Ret (A a) /\ irr_matrix o1 t = Ret (B a)) /\
    agree (io_d o0 * io_d o1) (io_d o0 * io_d o1) (m_at M) (fun i j => rsum (k - 1) (fun a => kronecker (io_d o1) (m_at (A (a + 1))) (m_at (B (a + 1))) i j)).
Proof. exact product_jm. Qed.
Print Assumptions C75_jucys_murphy.

Theorem C75_symmetric : forall n lambda0 lambda1 o0 o1 k M, is_part n lambda0 -> is_part n lambda1 -> irr_new lambda0 = Ret o0 -> irr_new lambda1 = Ret o1 ->
  1 <= k -> k <= n -> pr_jm o0 o1 k = Ret M -> agree (io_d o0 * io_d o1) (io_d o0 * io_d o1) (m_at M) (mtrans (m_at M)).
Proof. exact product_jm_symmetric. Qed.
Print Assumptions C75_symmetric.

(* it commutes with the action of every permutation that fixes k..n *)
Theorem C75_commutes_with_the_subgroup : forall n lambda0 lambda1 o0 o1 k p M A B, is_part n lambda0 -> is_part n lambda1 -> irr_new lambda0 = Ret o0 -> irr_new lambda1 = Ret o1 ->
  1 <= k -> k <= n -> is_perm n p -> (forall x, k <= x <= n -> img p x = x) ->
  pr_jm o0 o1 k = Ret M -> irr_matrix o0 p = Ret A -> irr_matrix o1 p = Ret B ->
  let d := io_d o0 * io_d o1 in let K := kronecker (io_d o1) (m_at A) (m_at B) in
  agree d d (mprod d K (m_at M)) (mprod d (m_at M) K).
Proof. exact product_jm_commutes. Qed.
Print Assumptions C75_commutes_with_the_subgroup.

(* so that all of them can be diagonalised together *)
Theorem C75_commute_with_each_other : forall n lambda0 lambda1 o0 o1 k k' M N, is_part n lambda0 -> is_part n lambda1 -> irr_new lambda0 = Ret o0 -> irr_new lambda1 = Ret o1 ->
  1 <= k <= n -> 1 <= k' <= n -> pr_jm o0 o1 k = Ret M -> pr_jm o0 o1 k' = Ret N ->
  let d := io_d o0 * io_d o1 in agree d d (mprod d (m_at M) (m_at N)) (mprod d (m_at N) (m_at M)).
Proof. exact product_jms_commute. Qed.
Print Assumptions C75_commute_with_each_other.

Theorem C75_trace : forall n lambda0 lambda1 o0 o1 k x y t M A B, is_part n lambda0 -> is_part n lambda1 -> irr_new lambda0 = Ret o0 -> irr_new lambda1 = Ret o1 ->
  1 <= k -> k <= n -> 1 <= x <= n -> 1 <= y <= n -> x <> y -> p_transposition n x y = Ret t ->
  pr_jm o0 o1 k = Ret M -> irr_matrix o0 t = Ret A -> irr_matrix o1 t = Ret B ->
  trace (io_d o0 * io_d o1) (m_at M) = (IZR (k - 1) * (trace (io_d o0) (m_at A) * trace (io_d o1) (m_at B)))%R.
Proof. exact product_jm_trace. Qed.
Print Assumptions C75_trace.

Example C75_example : exists o0 o1 M A B t, is_part 4 [3;1] /\ is_part 4 [2;2] /\ irr_new [3;1] = Ret o0 /\ irr_new [2;2] = Ret o1 /\ pr_d o0 o1 = 6 /\
  pr_jm o0 o1 3 = Ret M /\ p_transposition 4 1 3 = Ret t /\ is_perm 4 t /\ (forall x, 4 <= x <= 4 -> img t x = x) /\ irr_matrix o0 t = Ret A /\ irr_matrix o1 t = Ret B /\
  t_n1 (rows_get M) = pr_d o0 o1.
Proof.
  assert (is_part 4 [3;1]) as P0 by (apply decb_part; reflexivity). assert (is_part 4 [2;2]) as P1 by (apply decb_part; reflexivity).
  eassert (irr_new [3;1] = Ret _) as E0 by (vm_compute; reflexivity). eassert (irr_new [2;2] = Ret _) as E1 by (vm_compute; reflexivity).
  destruct (product_jm 4 [3;1] [2;2] _ _ 3 P0 P1 E0 E1 ltac:(lia) ltac:(lia)) as (M & A & B & EM & N0 & N1 & T & _). destruct (T 1 ltac:(lia)) as (t & Et & EA & EB).
  eexists _, _, M, (A 1), (B 1), t. split; [exact P0|]. split; [exact P1|]. split; [exact E0|]. split; [exact E1|]. split; [reflexivity|]. split; [exact EM|]. split; [exact Et|].
  assert (t = [3;2;1;4]) as -> by (vm_compute in Et; congruence). split; [apply (check_is_perm [3;2;1;4]); reflexivity|].
  split; [intros x Hx; assert (x = 4) by lia; subst x; reflexivity|]. split; [exact EA|]. split; [exact EB|]. exact N0.
Qed.
