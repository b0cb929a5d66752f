(* C101 *)
From Coq Require Import ZArith List Bool Reals Lia Lra.
From Verif Require Import Model_Base Model_Perm Model_Part Model_Irrep Model_Fun Model_FFT Model_Multi.
From Verif Require Import Spec_Perm Spec_Part Spec_Rep Spec_Multi.
From Verif Require Import Proof_Multi Proof_Multi2.
Import ListNotations.
Open Scope Z_scope.

(* after any history of actions in place, vector y is the matrix of the product of the permutations that moved it times
   what it was *)
Theorem C101_history : forall n lambda o h T, is_part n lambda -> 1 <= n -> irr_new lambda = Ret o -> t_n0 T = io_d o -> 0 <= t_n2 T ->
  Forall (bop_ok n (t_n1 T)) h ->
  exists T', run_bops h (mkMpart o T) = Ret (mkMpart o T') /\ t_n0 T' = t_n0 T /\ t_n1 T' = t_n1 T /\ t_n2 T' = t_n2 T /\
  forall y, 0 <= y < t_n1 T -> exists q M, is_perm n q /\ (forall i, 1 <= i <= n -> img q i = turns y h i) /\ irr_matrix o q = Ret M /\
    forall i k, 0 <= i < io_d o -> 0 <= k < t_n2 T -> t_at T' i y k = mprod (io_d o) (m_at M) (fun c k => t_at T c y k) i k.
Proof. exact batch_history. Qed.
Print Assumptions C101_history.

(* the copying version is right when the vectors have multiplicity 1 *)
Theorem C101_copy_of_multiplicity_one : forall n lambda o p b s T, is_part n lambda -> 1 <= n -> irr_new lambda = Ret o -> is_perm n p ->
  t_n0 T = io_d o -> t_n2 T = 1 -> 0 <= b -> 0 <= s -> b + s <= t_n1 T ->
  exists T1 T2, mp_apply_copy b s p (mkMpart o T) = Ret (mkMpart o T1) /\ mp_apply_perm b s p (mkMpart o T) = Ret (mkMpart o T2) /\
  t_n0 T1 = t_n0 T2 /\ t_n1 T1 = t_n1 T2 /\ t_n2 T1 = t_n2 T2 /\
  forall i y k, 0 <= i < io_d o -> 0 <= y < t_n1 T -> 0 <= k < t_n2 T -> t_at T1 i y k = t_at T2 i y k.
Proof. exact copy_of_length_one. Qed.
Print Assumptions C101_copy_of_multiplicity_one.

(* otherwise it moves the first columns of other vectors *)
Theorem C101_copy_moves_first_columns : forall n lambda o p b s T, is_part n lambda -> 1 <= n -> irr_new lambda = Ret o -> is_perm n p ->
  t_n0 T = io_d o -> 0 <= t_n2 T -> 0 <= b -> 0 <= s -> (b + s) * t_n2 T <= t_n1 T ->
  exists M T', irr_matrix o p = Ret M /\ mp_apply_copy b s p (mkMpart o T) = Ret (mkMpart o T') /\ t_n0 T' = t_n0 T /\ t_n1 T' = t_n1 T /\ t_n2 T' = t_n2 T /\
  forall i y k, 0 <= i < io_d o -> 0 <= y < t_n1 T -> 0 <= k < t_n2 T ->
    t_at T' i y k = if (k =? 0) && (b * t_n2 T <=? y) && (y <? (b + s) * t_n2 T) then mprod (io_d o) (m_at M) (fun c k => t_at T c y k) i k else t_at T i y k.
Proof. exact copy_acts. Qed.
Print Assumptions C101_copy_moves_first_columns.

Theorem C101_copy_by_cycle : forall n lambda o a e b s T, is_part n lambda -> 1 <= n -> irr_new lambda = Ret o -> 1 <= a -> a <= e -> e <= n ->
  t_n0 T = io_d o -> 0 <= t_n2 T -> 0 <= b -> 0 <= s -> (b + s) * t_n2 T <= t_n1 T ->
  exists c M T', p_contiguous_cycle n a e = Ret c /\ irr_matrix o c = Ret M /\ mp_apply_copy_cycle b s (mkCyc a e) (mkMpart o T) = Ret (mkMpart o T') /\
  t_n0 T' = t_n0 T /\ t_n1 T' = t_n1 T /\ t_n2 T' = t_n2 T /\
  forall i y k, 0 <= i < io_d o -> 0 <= y < t_n1 T -> 0 <= k < t_n2 T ->
    t_at T' i y k = if (k =? 0) && (b * t_n2 T <=? y) && (y <? (b + s) * t_n2 T) then mprod (io_d o) (m_at M) (fun c k => t_at T c y k) i k else t_at T i y k.
Proof. exact copy_cycle_acts. Qed.
Print Assumptions C101_copy_by_cycle.

Theorem C101_copy_refuted : forall o T, irr_new [1; 1] = Ret o -> t_n0 T = 1 -> t_n1 T = 2 -> t_n2 T = 2 ->
  exists T1 T2, mp_apply_copy 0 1 [2; 1] (mkMpart o T) = Ret (mkMpart o T1) /\ mp_apply_perm 0 1 [2; 1] (mkMpart o T) = Ret (mkMpart o T2) /\
    (t_at T1 0 0 1 = t_at T 0 0 1 /\ t_at T1 0 1 0 = - t_at T 0 1 0)%R /\ (t_at T2 0 0 1 = - t_at T 0 0 1 /\ t_at T2 0 1 0 = t_at T 0 1 0)%R.
Proof. exact copy_wrong. Qed.
Print Assumptions C101_copy_refuted.

(* or reads outside the tensor, as it does for every batch of one vector with multiplicity 2 or more *)
Theorem C101_copy_out_of_range_refuted : forall n lambda o p b s T, is_part n lambda -> 1 <= n -> irr_new lambda = Ret o -> is_perm n p ->
  (exists i, 1 <= i <= n /\ img p i <> i) -> 0 <= b -> 1 <= s -> t_n1 T < (b + s) * t_n2 T -> 1 <= t_n2 T ->
  forall P', mp_apply_copy b s p (mkMpart o T) <> Ret P'.
Proof. exact copy_never. Qed.
Print Assumptions C101_copy_out_of_range_refuted.

(* Non-vacuity: a history on a batch of three vectors, with overlapping ranges. *)
Example C101_hypotheses : Forall (bop_ok 3 3) [BPerm [2; 3; 1] 0 2; BCyc 1 2 1 2; BInv 2 3 0 3] /\ is_part 3 [2; 1] /\ (exists o, irr_new [2; 1] = Ret o /\ io_d o = 2) /\
  map (turns 1 [BPerm [2; 3; 1] 0 2; BCyc 1 2 1 2; BInv 2 3 0 3]) [1; 2; 3] = [1; 2; 3] /\
  map (turns 2 [BPerm [2; 3; 1] 0 2; BCyc 1 2 1 2; BInv 2 3 0 3]) [1; 2; 3] = [3; 1; 2].
Proof.
  split; [|split; [|split; [|split; reflexivity]]].
  - constructor; [|constructor; [cbn; lia|constructor; [cbn; lia|constructor]]]. split; [|lia].
    split; [reflexivity|]. split; [intros x I; cbn in I; intuition lia|]. repeat (constructor; [cbn; intuition lia|]). constructor.
  - split; [intros x I; cbn in I; intuition lia|]. split; [repeat constructor; lia|reflexivity].
  - eexists. split; reflexivity.
Qed.
