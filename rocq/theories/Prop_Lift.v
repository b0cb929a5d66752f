(* Properties C94, C95: the transform on Sn/Sm against the one on Sn, Plancherel's formula and the inverse transform
   on Sn/Sm, Sn/ClausenFFT*.hpp and Sn/SnOverSm*.hpp.  Statements only: the proofs are in Proof_Lift*.  Spec_Lift says
   when a function on Sn takes the values of a function on Sn/Sm. *)
From Coq Require Import ZArith List Bool Lia Reals Lra.
From Verif Require Import Model_Base Model_Perm Model_Sn Model_Part Model_Comb Model_Tab Model_Irrep Model_Fun Model_FFT.
From Verif Require Import Spec_Perm Spec_Part Spec_Rep Spec_Four Spec_Fun Spec_FFT Spec_Lift.
From Verif Require Import Proof_FFTprops2 Proof_Lift2 Proof_Lift3.
Import ListNotations.
Open Scope Z_scope.

(* ---- C94: a function on Sn/Sm and the function on Sn that it gives have the same transform ---- *)
(* the parts of the small transform are the parts of the large one whose first row has m boxes; the columns agree up
   to the factor m!, and everything else in the large one is zero.  rows_cycle: as in C45-C47 *)
Theorem C94_lift : forall n m f g, 1 <= m < n -> qf_n f = n -> qf_m f = m -> snsm_size n m = Ret (Z.of_nat (length (qf_v f))) ->
  sf_n g = n -> length (sf_v g) = fact (Z.to_nat n) -> lifts n m (qf_v f) g ->
  exists F Fq w wq, fft_new n = Ret F /\ fft_new2 n m = Ret Fq /\ fft_forward rows_cycle F g = Ret w /\ fft_forward_q rows_cycle Fq f = Ret wq /\
    Forall2 (lifted_part m) (filter (fun P => m <=? row (io_lambda (sp_irr P)) 0) w) wq /\
    forall P, In P w -> row (io_lambda (sp_irr P)) 0 < m -> forall i c, 0 <= i < m_n0 (sp_mat P) -> 0 <= c < m_n1 (sp_mat P) -> m_at (sp_mat P) i c = 0%R.
Proof. exact (fun n m f g H => lift_transform rows_cycle n m (good_rows n (Z.le_trans 1 m n (proj1 H) (Z.lt_le_incl m n (proj2 H)))) H f g). Qed.
Print Assumptions C94_lift.

(* the same for the batched action as the code runs it, where it is right (C65) *)
Theorem C94_as_run : forall n m f g, 1 <= n <= 4 -> 1 <= m < n -> qf_n f = n -> qf_m f = m -> snsm_size n m = Ret (Z.of_nat (length (qf_v f))) ->
  sf_n g = n -> length (sf_v g) = fact (Z.to_nat n) -> lifts n m (qf_v f) g ->
  exists F Fq w wq, fft_new n = Ret F /\ fft_new2 n m = Ret Fq /\ fft_forward irr_view_cycle F g = Ret w /\ fft_forward_q irr_view_cycle Fq f = Ret wq /\
    Forall2 (lifted_part m) (filter (fun P => m <=? row (io_lambda (sp_irr P)) 0) w) wq /\
    forall P, In P w -> row (io_lambda (sp_irr P)) 0 < m -> forall i c, 0 <= i < m_n0 (sp_mat P) -> 0 <= c < m_n1 (sp_mat P) -> m_at (sp_mat P) i c = 0%R.
Proof. exact (fun n m f g H K => lift_transform irr_view_cycle n m (good_view n H) K f g). Qed.
Print Assumptions C94_as_run.

(* every function on Sn/Sm gives one on Sn *)
Theorem C94_lift_exists : forall n m v, 1 <= m <= n -> exists g, sf_n g = n /\ length (sf_v g) = fact (Z.to_nat n) /\ lifts n m v g.
Proof. exact lift_exists. Qed.
Print Assumptions C94_lift_exists.

Example C94_example : snsm_size 3 2 = Ret 3 /\ lifts 3 2 [1; 2; 4]%R (mkFun 3 [1; 1; 2; 2; 4; 4]%R) /\ snsm_index 3 2 [3;1;2] = Ret 2 /\ sf_at (mkFun 3 [1; 1; 2; 2; 4; 4]%R) [3;1;2] = Ret 4%R.
Proof. split; [reflexivity|]. split; [exact lift_example|]. split; reflexivity. Qed.

(* ---- C95: Plancherel's formula and the inverse transform on Sn/Sm ---- *)
Theorem C95_plancherel : forall n m f g, 1 <= m < n -> qf_n f = n -> qf_m f = m -> snsm_size n m = Ret (Z.of_nat (length (qf_v f))) ->
  qf_n g = n -> qf_m g = m -> snsm_size n m = Ret (Z.of_nat (length (qf_v g))) ->
  exists F wf wg, fft_new2 n m = Ret F /\ fft_forward_q rows_cycle F f = Ret wf /\ fft_forward_q rows_cycle F g = Ret wg /\
    dot (qf_v f) (qf_v g) = sum_over (combine wf wg) (fun PQ => IZR (io_d (sp_irr (fst PQ))) * INR (fact (Z.to_nat m)) / INR (fact (Z.to_nat n)) *
      rsum (m_n0 (sp_mat (fst PQ))) (fun i => rsum (m_n1 (sp_mat (fst PQ))) (fun y => m_at (sp_mat (fst PQ)) i y * m_at (sp_mat (snd PQ)) i y)))%R.
Proof. exact (fun n m f g H => plancherel_quotient rows_cycle n m (good_rows n (Z.le_trans 1 m n (proj1 H) (Z.lt_le_incl m n (proj2 H)))) H f g). Qed.
Print Assumptions C95_plancherel.

(* every vector with the parts of a transform on Sn/Sm is the transform of its inverse, whose value at the coset of s
   is the sum over lambda of d_lambda m!/n! times the sum of the products of the entries of w_lambda and of the rows of
   rho_lambda(s) that belong to the tableaux with 1..m in the first row *)
Theorem C95_forward_of_inverse : forall n m ls w, 1 <= m < n -> integer_partitions n = Ret ls -> Forall2 (quotient_shape m) (filter (fun l => m <=? row l 0) ls) w ->
  exists F f w' css, fft_new2 n m = Ret F /\ fft_inv_snsm rows_cycle F w = Ret f /\ qf_n f = n /\ qf_m f = m /\ snsm_size n m = Ret (Z.of_nat (length (qf_v f))) /\
    fft_forward_q rows_cycle F f = Ret w' /\ Forall2 same_part w' w /\ Forall2 (part_columns m) w css /\
    forall e s Ms, 0 <= e < Z.of_nat (length (qf_v f)) -> snsm_element n m e = Ret s -> Forall2 (fun P M => irr_matrix (sp_irr P) s = Ret M) w Ms ->
      nth (Z.to_nat e) (qf_v f) 0%R = sum_over (combine w (combine Ms css)) (fun x => IZR (io_d (sp_irr (fst x))) * INR (fact (Z.to_nat m)) / INR (fact (Z.to_nat n)) *
        rsum (m_n0 (sp_mat (fst x))) (fun i => rsum (m_n1 (sp_mat (fst x))) (fun y => m_at (sp_mat (fst x)) i y * m_at (fst (snd x)) (nth (Z.to_nat y) (snd (snd x)) 0%Z) i)))%R.
Proof. exact (fun n m ls w H => onto_quotient rows_cycle n m (good_rows n (Z.le_trans 1 m n (proj1 H) (Z.lt_le_incl m n (proj2 H)))) H ls w). Qed.
Print Assumptions C95_forward_of_inverse.

(* with any entries there is such a vector *)
Theorem C95_vectors_exist : forall n m ls (V : list Z -> Z -> Z -> R), 1 <= m < n -> integer_partitions n = Ret ls ->
  exists w, Forall2 (quotient_shape m) (filter (fun l => m <=? row l 0) ls) w /\ Forall2 (fun l P => forall i y, m_at (sp_mat P) i y = V l i y) (filter (fun l => m <=? row l 0) ls) w.
Proof. exact shapes_exist. Qed.
Print Assumptions C95_vectors_exist.

Example C95_example : snsm_size 4 2 = Ret 12 /\ integer_partitions 4 = Ret [[4]; [3;1]; [2;2]; [2;1;1]; [1;1;1;1]] /\
  filter (fun l => 2 <=? row l 0) [[4]; [3;1]; [2;2]; [2;1;1]; [1;1;1;1]] = [[4]; [3;1]; [2;2]; [2;1;1]].
Proof. vm_compute. repeat split; reflexivity. Qed.
