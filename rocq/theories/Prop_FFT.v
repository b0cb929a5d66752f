(* Properties C44-C47 and C65-C69: the fast Fourier transform on Sn and Sn/Sm, Sn/ClausenFFT*.hpp.
   fft_forward and its companions take the action of a cycle on the parts as their first argument:
   rows_cycle applies it to each row on its own (the loops kept as comments in ClausenFFTvecTmplt.hpp),
   irr_view_cycle applies it to all rows of a slice at once, which is what the code runs. *)
From Coq Require Import ZArith List Bool Lia Reals Lra.
From Verif Require Import Model_Base Model_Perm Model_Sn Model_Part Model_Comb Model_Tab Model_Irrep Model_Fun Model_FFT.
From Verif Require Import Spec_Perm Spec_Part Spec_Tab Spec_Rep Spec_Four Spec_FFT.
From Verif Require Import Proof_Base Proof_Perm Proof_PermProps Proof_FFTact Proof_FFTprops2 Proof_FFTlay2 Proof_FFTquo Proof_FFTwrong Proof_FFTbank Proof_FFTover.
Import ListNotations.
Open Scope Z_scope.

(* ---- C44 ---- *)
(* one level for each k=1..n, one part for each partition of k in the order of the enumeration, as many
   columns as rows *)
Theorem C44_levels_and_parts : forall n, 1 <= n -> exists F, fft_new n = Ret F /\ Z.of_nat (length (ff_levels F)) = n /\
  forall k, 1 <= k <= n -> exists L ls, nth_error (ff_levels F) (Z.to_nat (k - 1)) = Some L /\ tl_n L = k /\ integer_partitions k = Ret ls /\ length (tl_parts L) = length ls /\
    forall i l p, nth_error ls i = Some l -> nth_error (tl_parts L) i = Some p -> part_template 1 l i p /\ tp_m p = tp_d p.
Proof. exact sn_layout. Qed.
Print Assumptions C44_levels_and_parts.

(* one block for each way of taking a box away, in that order, at the rows and columns of the tableaux that
   restrict to it *)
Theorem C44_blocks : forall n F k L L' p, 1 <= n -> fft_new n = Ret F -> 1 < k <= n ->
  nth_error (ff_levels F) (Z.to_nat (k - 1)) = Some L -> nth_error (ff_levels F) (Z.to_nat (k - 2)) = Some L' -> In p (tl_parts L) ->
  exists mus, ip_foreach_sub (io_lambda (tp_irr p)) = Ret mus /\ Forall2 (block_template 1 (tl_parts L') (io_lambda (tp_irr p))) mus (tp_blocks p) /\ Forall (fun b => bk_i b = bk_j b) (tp_blocks p).
Proof. exact sn_blocks. Qed.
Print Assumptions C44_blocks.

(* at level 3 of the transform on S4 the part of shape (2,1) has two blocks, which start at rows 0 and 1 and
   are parts 0 and 1 of level 2 *)
Example C44_example : (F <- fft_new 4 ;; match nth_error (ff_levels F) 2 with
    | Some L => Ret (map (fun p => (tp_ix p, tp_d p, tp_m p, map (fun b => (bk_i b, bk_j b, bk_sub b)) (tp_blocks p))) (tl_parts L))
    | None => UB end) =
  Ret [(0, 1, 1, [(0, 0, 0)]); (1, 2, 2, [(0, 0, 0); (1, 1, 1)]); (2, 1, 1, [(0, 0, 1)])].
Proof. vm_compute. reflexivity. Qed.

(* ---- C45 ---- *)
Theorem C45_forward : forall n f G, 1 <= n -> sf_n f = n -> length (sf_v f) = fact (Z.to_nat n) -> (forall p, is_perm n p -> sf_at f p = Ret (G p)) ->
  exists F ls w, fft_new n = Ret F /\ integer_partitions n = Ret ls /\ fft_forward rows_cycle F f = Ret w /\ Forall2 (fourier_part n G) ls w.
Proof. exact (fun n f G H => forward_fourier rows_cycle n f G (good_rows n H)). Qed.
Print Assumptions C45_forward.

Example C45_example : sf_n (mkFun 2 [5; 7]%R) = 2 /\ length (sf_v (mkFun 2 [5; 7]%R)) = fact (Z.to_nat 2) /\
  sf_at (mkFun 2 [5; 7]%R) [1;2] = Ret 5%R /\ sf_at (mkFun 2 [5; 7]%R) [2;1] = Ret 7%R /\
  exists a b, (F <- fft_new 2 ;; w <- fft_forward rows_cycle F (mkFun 2 [5; 7]%R) ;; Ret (map (fun P => (io_lambda (sp_irr P), m_at (sp_mat P) 0 0)) w)) = Ret [([2], a); ([1;1], b)] /\
    a = 12%R /\ b = (-2)%R.
Proof.
  repeat (split; [reflexivity|]). exists (0 + (0 + 5) + 1 * (0 + 7))%R, (0 + (0 + 5) + -1 * (0 + 7))%R. split; [|lra].
  lazy -[Rplus Rmult IZR Rdiv Rminus sqrt Ropp Rinv]. reflexivity.
Qed.

(* ---- C46 ---- *)
Theorem C46_inverse_of_forward : forall n f, 1 <= n -> sf_n f = n -> length (sf_v f) = fact (Z.to_nat n) ->
  exists F w, fft_new n = Ret F /\ fft_forward rows_cycle F f = Ret w /\ fft_inv rows_cycle F w = Ret f.
Proof. exact (fun n f H => round_trip rows_cycle n f (good_rows n H)). Qed.
Print Assumptions C46_inverse_of_forward.

(* the other way round, with the value of the inverse transform: g(p) = sum over lambda of
   d_lambda/n! trace(w_lambda rho_lambda(p)) *)
Theorem C46_forward_of_inverse : forall n ls w, 1 <= n -> integer_partitions n = Ret ls -> Forall2 square_part ls w ->
  exists F g w', fft_new n = Ret F /\ fft_inv rows_cycle F w = Ret g /\ sf_n g = n /\ length (sf_v g) = fact (Z.to_nat n) /\
    fft_forward rows_cycle F g = Ret w' /\ Forall2 same_part w' w /\
    forall p Ms, is_perm n p -> Forall2 (fun P M => irr_matrix (sp_irr P) p = Ret M) w Ms ->
      sf_at g p = Ret (sum_over (combine w Ms) (fun PM => (IZR (io_d (sp_irr (fst PM))) / INR (fact (Z.to_nat n)) *
         trace (io_d (sp_irr (fst PM))) (mprod (io_d (sp_irr (fst PM))) (m_at (sp_mat (fst PM))) (m_at (snd PM))))%R)).
Proof. exact (fun n ls w H => surjective rows_cycle n ls w (good_rows n H)). Qed.
Print Assumptions C46_forward_of_inverse.

(* ---- C47 ---- *)
(* the transform of f*g is, part by part, the product of the transforms, that of g on the left *)
Theorem C47_convolution : forall n f g, 1 <= n -> sf_n f = n -> length (sf_v f) = fact (Z.to_nat n) -> sf_n g = n -> length (sf_v g) = fact (Z.to_nat n) ->
  exists F h wf wg wh, fft_new n = Ret F /\ sf_convolve f g = Ret h /\ fft_forward rows_cycle F f = Ret wf /\ fft_forward rows_cycle F g = Ret wg /\
    fft_forward rows_cycle F h = Ret wh /\ product_parts wg wf wh.
Proof. exact (fun n f g H => convolution_products rows_cycle n f g (good_rows n H)). Qed.
Print Assumptions C47_convolution.

Theorem C47_left_translation : forall n f t t', 1 <= n -> sf_n f = n -> length (sf_v f) = fact (Z.to_nat n) -> is_perm n t -> is_inverse n t t' ->
  exists F h wf wh, fft_new n = Ret F /\ sf_left_translate f t = Ret h /\ fft_forward rows_cycle F f = Ret wf /\ fft_forward rows_cycle F h = Ret wh /\ Forall2 (right_multiple t') wf wh.
Proof. exact (fun n f t t' H => left_translate_multiple rows_cycle n f t t' (good_rows n H)). Qed.
Print Assumptions C47_left_translation.

Theorem C47_right_translation : forall n f t t', 1 <= n -> sf_n f = n -> length (sf_v f) = fact (Z.to_nat n) -> is_perm n t -> is_inverse n t t' ->
  exists F h wf wh, fft_new n = Ret F /\ sf_right_translate f t = Ret h /\ fft_forward rows_cycle F f = Ret wf /\ fft_forward rows_cycle F h = Ret wh /\ Forall2 (left_multiple t') wf wh.
Proof. exact (fun n f t t' H => right_translate_multiple rows_cycle n f t t' (good_rows n H)). Qed.
Print Assumptions C47_right_translation.

Theorem C47_inversion : forall n f, 1 <= n -> sf_n f = n -> length (sf_v f) = fact (Z.to_nat n) ->
  exists F h wf wh, fft_new n = Ret F /\ sf_inv f = Ret h /\ fft_forward rows_cycle F f = Ret wf /\ fft_forward rows_cycle F h = Ret wh /\ Forall2 transposed_part wf wh.
Proof. exact (fun n f H => inverse_transpose rows_cycle n f (good_rows n H)). Qed.
Print Assumptions C47_inversion.

Example C47_example : is_perm 3 [2;3;1] /\ is_inverse 3 [2;3;1] [3;1;2] /\ length (sf_v (mkFun 3 [1;2;3;4;5;6]%R)) = fact (Z.to_nat 3).
Proof.
  split; [apply (check_is_perm [2;3;1]); reflexivity|]. split; [|reflexivity].
  assert (is_perm 3 [2;3;1]) as P by (apply (check_is_perm [2;3;1]); reflexivity). change [3;1;2] with (pinv [2;3;1]). apply pinv_is_inverse. exact P.
Qed.

(* ---- C65: the transform as the code runs it ---- *)
Theorem C65_forward_up_to_4 : forall n f G, 1 <= n <= 4 -> sf_n f = n -> length (sf_v f) = fact (Z.to_nat n) -> (forall p, is_perm n p -> sf_at f p = Ret (G p)) ->
  exists F ls w, fft_new n = Ret F /\ integer_partitions n = Ret ls /\ fft_forward irr_view_cycle F f = Ret w /\ Forall2 (fourier_part n G) ls w.
Proof. exact (fun n f G H => forward_fourier irr_view_cycle n f G (good_view n H)). Qed.
Print Assumptions C65_forward_up_to_4.

Theorem C65_round_trip_up_to_4 : forall n f, 1 <= n <= 4 -> sf_n f = n -> length (sf_v f) = fact (Z.to_nat n) ->
  exists F w, fft_new n = Ret F /\ fft_forward irr_view_cycle F f = Ret w /\ fft_inv irr_view_cycle F w = Ret f.
Proof. exact (fun n f H => round_trip irr_view_cycle n f (good_view n H)). Qed.
Print Assumptions C65_round_trip_up_to_4.

Theorem C65_quotient_up_to_4 : forall n m f, 1 <= n <= 4 -> 1 <= m <= n -> qf_n f = n -> qf_m f = m -> snsm_size n m = Ret (Z.of_nat (length (qf_v f))) ->
  exists F w, fft_new2 n m = Ret F /\ fft_forward_q irr_view_cycle F f = Ret w /\ fft_inv_snsm irr_view_cycle F w = Ret f.
Proof. exact (fun n m f H K => round_trip_quotient irr_view_cycle n m (good_view n H) K f). Qed.
Print Assumptions C65_quotient_up_to_4.

(* on S5 it is wrong: there is a function whose transform is not its Fourier transform *)
Theorem C65_forward_S5_refuted : exists f F w ls, fft_new 5 = Ret F /\ sf_n f = 5 /\ length (sf_v f) = fact (Z.to_nat 5) /\ integer_partitions 5 = Ret ls /\ fft_forward irr_view_cycle F f = Ret w /\
  forall G, (forall p, is_perm 5 p -> sf_at f p = Ret (G p)) -> ~ Forall2 (fourier_part 5 G) ls w.
Proof. exact (ex_intro _ delta72 as_written_wrong). Qed.
Print Assumptions C65_forward_S5_refuted.

(* from S6 on it writes outside its tables, whatever the function *)
Theorem C65_forward_from_S6_refuted : forall n f, 6 <= n -> sf_n f = n -> length (sf_v f) = fact (Z.to_nat n) ->
  exists F, fft_new n = Ret F /\ fft_forward irr_view_cycle F f = UB.
Proof. exact forward_from_6. Qed.
Print Assumptions C65_forward_from_S6_refuted.

(* and the inverse returns on no vector with the parts of a transform *)
Theorem C65_inverse_from_S6_refuted : forall n F ls w g, 6 <= n -> fft_new n = Ret F -> integer_partitions n = Ret ls -> Forall2 square_part ls w ->
  fft_inv irr_view_cycle F w <> Ret g.
Proof. exact inverse_from_6. Qed.
Print Assumptions C65_inverse_from_S6_refuted.

(* so the transform as run is the Fourier transform exactly for n<=4 *)
Theorem C65_forward_exact : forall n, 1 <= n ->
  ((forall f G, sf_n f = n -> length (sf_v f) = fact (Z.to_nat n) -> (forall p, is_perm n p -> sf_at f p = Ret (G p)) ->
     exists F ls w, fft_new n = Ret F /\ integer_partitions n = Ret ls /\ fft_forward irr_view_cycle F f = Ret w /\ Forall2 (fourier_part n G) ls w) <-> n <= 4).
Proof. exact forward_right_iff. Qed.
Print Assumptions C65_forward_exact.

Example C65_example : exists f, sf_n f = 6 /\ length (sf_v f) = fact (Z.to_nat 6).
Proof. exists (mkFun 6 (repeat 1%R (fact (Z.to_nat 6)))). split; [reflexivity|apply repeat_length]. Qed.

(* ---- C66: the transform on Sn/Sm ---- *)
(* the parts are those of the partitions with m boxes in the first row; a part has one column for each tableau
   with 1..m in the first row *)
Theorem C66_levels_and_parts : forall n m, 1 <= m <= n -> exists F, fft_new2 n m = Ret F /\ Z.of_nat (length (ff_levels F)) = n - m + 1 /\
  forall k, m <= k <= n -> exists L ls, nth_error (ff_levels F) (Z.to_nat (k - m)) = Some L /\ tl_n L = k /\ integer_partitions k = Ret ls /\
    length (tl_parts L) = length (filter (fun l => m <=? row l 0) ls) /\
    forall i l p, nth_error (filter (fun l => m <=? row l 0) ls) i = Some l -> nth_error (tl_parts L) i = Some p -> part_template m l i p.
Proof. exact quotient_layout. Qed.
Print Assumptions C66_levels_and_parts.

Theorem C66_blocks : forall n m F k L L' p, 1 <= m <= n -> fft_new2 n m = Ret F -> m < k <= n ->
  nth_error (ff_levels F) (Z.to_nat (k - m)) = Some L -> nth_error (ff_levels F) (Z.to_nat (k - 1 - m)) = Some L' -> In p (tl_parts L) ->
  exists mus, ip_foreach_sub (io_lambda (tp_irr p)) = Ret mus /\ Forall2 (block_template m (tl_parts L') (io_lambda (tp_irr p))) (filter (fun mu => m <=? row mu 0) mus) (tp_blocks p).
Proof. exact quotient_blocks. Qed.
Print Assumptions C66_blocks.

Theorem C66_forward : forall n m f, 1 <= m < n -> qf_n f = n -> qf_m f = m -> snsm_size n m = Ret (Z.of_nat (length (qf_v f))) ->
  exists F ls w, fft_new2 n m = Ret F /\ integer_partitions n = Ret ls /\ fft_forward_q rows_cycle F f = Ret w /\
    Forall2 (quotient_part n m (qf_v f)) (filter (fun l => m <=? row l 0) ls) w.
Proof. exact quotient_forward_rows. Qed.
Print Assumptions C66_forward.

Theorem C66_round_trip : forall n m f, 1 <= m <= n -> qf_n f = n -> qf_m f = m -> snsm_size n m = Ret (Z.of_nat (length (qf_v f))) ->
  exists F w, fft_new2 n m = Ret F /\ fft_forward_q rows_cycle F f = Ret w /\ fft_inv_snsm rows_cycle F w = Ret f.
Proof. exact quotient_round_trip_rows. Qed.
Print Assumptions C66_round_trip.

(* the transform on S4/S2: shape, rows, columns and blocks of each part *)
Example C66_example : snsm_size 4 2 = Ret 12 /\
  (F <- fft_new2 4 2 ;; match nth_error (ff_levels F) 2 with
    | Some L => Ret (map (fun p => (io_lambda (tp_irr p), tp_d p, tp_m p, map (fun b => (bk_i b, bk_j b, bk_sub b)) (tp_blocks p))) (tl_parts L))
    | None => UB end) =
  Ret [([4], 1, 1, [(0, 0, 0)]); ([3; 1], 3, 2, [(0, 0, 0); (1, 1, 1)]); ([2; 2], 2, 1, [(0, 0, 1)]); ([2; 1; 1], 3, 1, [(0, 0, 1)])].
Proof. vm_compute. split; reflexivity. Qed.

(* ---- C67: for m=n the result carries the irrep of S1 ---- *)
Theorem C67_whole_group_refuted : forall n x, 2 <= n -> exists F w P o, fft_new2 n n = Ret F /\ fft_forward_q irr_view_cycle F (mkQfun n n [x]) = Ret w /\ w = [P] /\
  irr_new [1] = Ret o /\ sp_irr P = o /\ irr_new [n] <> Ret (sp_irr P).
Proof. exact (quotient_n_n irr_view_cycle). Qed.
Print Assumptions C67_whole_group_refuted.

(* ---- C68: inv on a quotient transform ---- *)
(* the values come back, but as a function on S_(n-m+1), of which they are not even the right number *)
Theorem C68_inv_on_quotient_refuted : forall n m f, 2 <= m < n -> n <= 4 -> qf_n f = n -> qf_m f = m -> snsm_size n m = Ret (Z.of_nat (length (qf_v f))) ->
  exists F w g, fft_new2 n m = Ret F /\ fft_forward_q irr_view_cycle F f = Ret w /\ fft_inv irr_view_cycle F w = Ret g /\ sf_v g = qf_v f /\ sf_n g = n - m + 1 /\ sf_n g <> n /\
    length (sf_v g) <> fact (Z.to_nat (sf_n g)).
Proof. exact inv_on_quotient. Qed.
Print Assumptions C68_inv_on_quotient_refuted.

(* ---- C69: the table of transforms ---- *)
Theorem C69_bank : forall qs1 qs2 n m, Forall legal_fft qs1 -> Forall legal_fft qs2 -> legal_fft (n, m) ->
  exists F Fs1 b1 b2 Fs2 b3, (if m >? -1 then fft_new2 n m else fft_new n) = Ret F /\ fb_run qs1 [] = Ret (Fs1, b1) /\ fb_get b1 n m = Ret (F, b2) /\
    fb_run qs2 b2 = Ret (Fs2, b3) /\ fb_get b3 n m = Ret (F, b3).
Proof. exact fft_bank. Qed.
Print Assumptions C69_bank.

(* the quotient by S1 is the whole group *)
Theorem C69_trivial_quotient : forall n, 1 <= n -> exists F F', fft_new n = Ret F /\ fft_new2 n 1 = Ret F' /\ ff_n F = ff_n F' /\ ff_levels F = ff_levels F'.
Proof. exact fft_trivial. Qed.
Print Assumptions C69_trivial_quotient.

Example C69_example : Forall legal_fft [(4, -1); (4, 2); (3, 1); (4, -1)].
Proof. repeat apply Forall_cons; try apply Forall_nil; unfold legal_fft; cbn; lia. Qed.
