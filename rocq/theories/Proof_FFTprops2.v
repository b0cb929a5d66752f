(* The transform on Sn in the words of the interface (C45-C47). *)
From Coq Require Import ZArith List Bool Lia ZifyBool ZifyNat Reals Lra Sorted Permutation.
From Verif Require Import Model_Base Model_Perm Model_Sn Model_Part Model_Comb Model_Tab Model_Irrep Model_Fun Model_FFT.
From Verif Require Import Spec_Perm Spec_Part Spec_Tab Spec_Rep Spec_Four Spec_Fun Spec_FFT.
From Verif Require Import Proof_Base Proof_Perm Proof_Sn Proof_Part Proof_PartProps Proof_Tab Proof_TabProps Proof_Cycles Proof_Cox Proof_Yor Proof_Sum
  Proof_Irrep Proof_Rep Proof_Mat Proof_IrrepProps Proof_JM Proof_Conn Proof_Schur Proof_Restr Proof_UpDown Proof_Complete Proof_View Proof_ViewProps
  Proof_Fun Proof_FFTlay Proof_FFTblk Proof_FFTact Proof_FFTstep Proof_FFTmath Proof_FFT Proof_FFTprops.
Import ListNotations.
Open Scope Z_scope.

Lemma is_inverse_pinv n p q : is_perm n p -> is_inverse n p q -> q = pinv p.
Proof.
  intros P (Q & H). pose proof (is_perm_pinv n p P) as Pi. rewrite <- (pmul_pid_r n q) by auto. rewrite <- (pmul_pinv_r n p P), <- (pmul_assoc n) by auto.
  assert (pmul q p = pid n) as ->; [|apply (pmul_pid_l n); auto].
  apply (perm_ext n); [apply (is_perm_pmul n); auto|apply is_perm_pid; apply is_perm_nonneg in P; auto|]. intros i Hi. rewrite img_pmul by (rewrite (is_perm_len n p); auto). rewrite H, img_pid by auto. reflexivity.
Qed.

Lemma pinv_is_inverse n p : is_perm n p -> is_inverse n p (pinv p).
Proof.
  intros P. pose proof (is_perm_pinv n p P) as Pi. split; auto. intros i Hi. rewrite <- img_pmul by (rewrite (is_perm_len n p); auto). rewrite (pmul_pinv_l n) by auto. apply img_pid; auto.
Qed.

Lemma fpart_fourier n G l P : 1 <= n -> is_part n l -> fpart n G l P -> fourier_part n G l P.
Proof.
  intros Hn PL (A & B & C & D). destruct (mkirr_ok n l PL Hn) as (E & Gd). unfold fourier_part, square_part. rewrite A. split; [repeat split; auto|]. intros L M HL HM i j Hi Hj.
  rewrite D by auto. unfold four. change (@sum_over) with (@lsum). rewrite (lsum_Permutation _ _ _ (lists_Sn_Permutation n _ _ (all_perms_lists n ltac:(lia)) HL)). apply lsum_ext. intros p Hp. pose proof (proj1 (proj2 HL p) Hp) as Pp.
  destruct (matrix_ok n l _ Gd (pinv p) (is_perm_pinv n p Pp)) as (M' & EM & _ & _ & V). rewrite (HM p (pinv p) Hp (pinv_is_inverse n p Pp)) in EM. apply Ret_inj in EM. subst M'. rewrite V by auto. reflexivity.
Qed.

Lemma fourier_fpart n G l P : 1 <= n -> is_part n l -> fourier_part n G l P -> fpart n G l P.
Proof.
  intros Hn PL ((A & B & C) & D). destruct (mkirr_ok n l PL Hn) as (E & Gd). rewrite E in A. apply Ret_inj in A. rewrite <- A in *. repeat split; auto.
  specialize (D (all_perms n) (fun p => match irr_matrix (mkirr n l) (pinv p) with Ret M => M | _ => mident 0 end) (all_perms_lists n ltac:(lia))).
  assert (forall p q, In p (all_perms n) -> is_inverse n p q -> irr_matrix (mkirr n l) q = Ret match irr_matrix (mkirr n l) (pinv p) with Ret M => M | _ => mident 0 end) as H.
  { intros p q Hp I. apply (all_perms_lists n ltac:(lia)) in Hp. rewrite (is_inverse_pinv n p q Hp I). destruct (matrix_ok n l _ Gd (pinv p) (is_perm_pinv n p Hp)) as (M & -> & _). reflexivity. }
  intros i j Hi Hj. rewrite (D H i j Hi Hj). unfold four. change (@sum_over) with (@lsum). apply lsum_ext. intros p Hp. apply (all_perms_lists n ltac:(lia)) in Hp.
  destruct (matrix_ok n l _ Gd (pinv p) (is_perm_pinv n p Hp)) as (M & -> & _ & _ & V). rewrite V by auto. reflexivity.
Qed.

Definition good_act (act : irr -> ccycle -> ten -> outcome ten) (n : Z) : Prop := 1 <= n /\ forall k, 2 <= k <= n -> act_ok act k.

Lemma good_rows n : 1 <= n -> good_act rows_cycle n.
Proof. intros Hn. split; auto. intros k Hk. apply rows_act_ok. lia. Qed.
Lemma good_view n : 1 <= n <= 4 -> good_act irr_view_cycle n.
Proof. intros Hn. split; [lia|]. intros k Hk. apply view_act_ok. lia. Qed.

Lemma in_parts_n n l : 1 <= n -> (In l (plist (Z.to_nat (n - 1))) <-> is_part n l).
Proof. intros Hn. rewrite plist_spec. replace (Z.of_nat (Z.to_nat (n - 1)) + 1) with n by lia. tauto. Qed.

Lemma fv_at n f G : 1 <= n -> is_fun n f -> (forall p, is_perm n p -> sf_at f p = Ret (G p)) -> forall p, is_perm n p -> fv f p = G p.
Proof. intros Hn IF H p Pp. pose proof (H p Pp) as Q. rewrite (sf_at_ok n) in Q by auto. apply Ret_inj in Q. exact Q. Qed.

Lemma forward_fourier act n f G : good_act act n -> sf_n f = n -> length (sf_v f) = fact (Z.to_nat n) -> (forall p, is_perm n p -> sf_at f p = Ret (G p)) ->
  exists F ls w, fft_new n = Ret F /\ integer_partitions n = Ret ls /\ fft_forward act F f = Ret w /\ Forall2 (fourier_part n G) ls w.
Proof.
  intros (Hn & HA) A B HG. pose proof (fun_on_is n f A B) as IF. destruct (forward_n act n Hn HA f IF) as (w & E & W). exists (fftn n), (plist (Z.to_nat (n - 1))), w.
  split; [apply fft_new_ok; auto|]. split; [apply integer_partitions_ok; auto|]. split; auto. eapply F2_impl; [|exact W]. intros l P Hl HP. apply in_parts_n in Hl; auto. apply fpart_fourier; auto.
  eapply fpart_ext; [lia|apply (fv_at n); eauto|exact HP].
Qed.

Lemma round_trip act n f : good_act act n -> sf_n f = n -> length (sf_v f) = fact (Z.to_nat n) ->
  exists F w, fft_new n = Ret F /\ fft_forward act F f = Ret w /\ fft_inv act F w = Ret f.
Proof.
  intros (Hn & HA) A B. pose proof (fun_on_is n f A B) as IF. destruct (forward_n act n Hn HA f IF) as (w & E & W). exists (fftn n), w. split; [apply fft_new_ok; auto|]. split; auto. apply inverse_n; auto.
Qed.

(* ---- every family of matrices is a transform ---- *)
Lemma sum_combine {A B} (ls : list A) (w : list B) (F : A -> R) (H : B -> R) : Forall2 (fun l P => F l = H P) ls w -> lsum ls F = lsum w H.
Proof. induction 1 as [|l P ls w E _ IH]; [reflexivity|]. rewrite !lsum_cons, E, IH. reflexivity. Qed.

Definition partW (n : Z) (w : list spart) (l : list Z) : Z -> Z -> R := m_at (sp_mat (znth w (pix l (plist (Z.to_nat (n - 1)))) (mkSpart (mkirr n l) (mident 0)))).

Lemma F2_nth {A B} (R : A -> B -> Prop) xs ys i dx dy : Forall2 R xs ys -> (i < length xs)%nat -> R (nth i xs dx) (nth i ys dy).
Proof. intros F. revert i. induction F as [|x y xs ys H F IH]; intros [|i] Hi; cbn in *; try lia; auto. apply IH. lia. Qed.

Lemma partW_at n w : 1 <= n -> length w = length (plist (Z.to_nat (n - 1))) ->
  Forall2 (fun l P => forall i j, partW n w l i j = m_at (sp_mat P) i j) (plist (Z.to_nat (n - 1))) w.
Proof.
  intros Hn L. set (ls := plist (Z.to_nat (n - 1))) in *.
  assert (forall i, (i < length ls)%nat -> forall dx dy, forall a b, partW n w (nth i ls dx) a b = m_at (sp_mat (nth i w dy)) a b) as H.
  { intros i Hi dx dy a b. unfold partW. fold ls. pose proof (pix_znth ls (Z.of_nat i) (NoDup_plist _)) as Q. unfold znth, zlen in *. rewrite Nat2Z.id in Q.
    rewrite (nth_indep ls dx []) by auto. rewrite Q by lia. rewrite Nat2Z.id. rewrite (nth_indep w dy (mkSpart (mkirr n (nth i ls [])) (mident 0))) by lia. reflexivity. }
  revert H. generalize (partW n w) as V. revert L. generalize ls as xs. clear. induction w as [|P w IH]; intros [|l xs] L V H; try discriminate; constructor.
  - intros i j. apply (H 0%nat ltac:(cbn; lia) [] P).
  - apply IH; [cbn in L; lia|]. intros i Hi dx dy a b. apply (H (S i) ltac:(cbn; lia) dx dy).
Qed.

Lemma surjective act n ls w : good_act act n -> integer_partitions n = Ret ls -> Forall2 square_part ls w ->
  exists F g w', fft_new n = Ret F /\ fft_inv act F w = Ret g /\ sf_n g = n /\ length (sf_v g) = fact (Z.to_nat n) /\
    fft_forward act F g = Ret w' /\ Forall2 same_part w' w /\
    forall p Ms, is_perm n p -> Forall2 (fun P M => irr_matrix (sp_irr P) p = Ret M) w Ms ->
      sf_at g p = Ret (sum_over (combine w Ms) (fun PM => (IZR (io_d (sp_irr (fst PM))) / INR (fact (Z.to_nat n)) *
         trace (io_d (sp_irr (fst PM))) (mprod (io_d (sp_irr (fst PM))) (m_at (sp_mat (fst PM))) (m_at (snd PM))))%R)).
Proof.
  intros (Hn & HA) EL SW. rewrite integer_partitions_ok in EL by auto. apply Ret_inj in EL. subst ls. set (ls := plist (Z.to_nat (n - 1))) in *.
  assert (length w = length ls) as LW by (pose proof (F2_len _ _ _ SW); unfold zlen in *; lia).
  assert (exists W : list Z -> Z -> Z -> R, Forall2 (fun l P => forall i j, W l i j = m_at (sp_mat P) i j) ls w) as (W & PW) by (exists (partW n w); apply partW_at; auto). clear LW.
  set (g := of_fun n (ifour n W)). pose proof (of_fun_is n (ifour n W)) as IG. fold g in IG.
  assert (Forall2 (fpart n (fv g)) ls w) as FW.
  { clear - Hn SW PW. assert (forall l, In l ls -> is_part n l) as I by (intros l Hl; apply in_parts_n; auto). revert I SW PW. generalize ls as xs. intros xs I SW PW. revert I PW. induction SW as [|l P xs w0 (A & B & C) SW IH]; intros I PW; constructor.
    - assert (is_part n l) as PL by (apply I; left; auto). destruct (mkirr_ok n l PL Hn) as (E & Gd). rewrite E in A. apply Ret_inj in A. rewrite <- A in *. repeat split; auto. intros i j Hi Hj. inversion PW as [|? ? ? ? Q _]; subst. rewrite <- Q.
      rewrite <- (four_ifour n W l i j Hn PL Hi Hj). apply four_ext; [lia|]. intros p Pp. symmetry. apply of_fun_at; auto.
    - apply IH; [intros; apply I; right; auto|]. inversion PW; auto. }
  destruct (forward_n act n Hn HA g IG) as (w' & E' & W'). exists (fftn n), g, w'. split; [apply fft_new_ok; auto|]. split; [apply inverse_n; auto|]. destruct (is_fun_on n g IG) as (Q1 & Q2). split; auto. split; auto. split; auto. split.
  - clear - FW W'. fold ls in W'. revert W'. revert w'. induction FW as [|l P xs w0 (A & B & C & D) FW IH]; intros w' W'; inversion W' as [|? P' ? ? (A' & B' & C' & D') W'']; subst; constructor; auto.
    split; [congruence|]. split; [congruence|]. split; [congruence|]. rewrite B', C'. intros i j Hi Hj. rewrite D, D' by auto. reflexivity.
  - intros p Ms Pp FM. rewrite (sf_at_ok n) by auto. f_equal. unfold g. rewrite of_fun_at by auto. unfold ifour. fold ls. change (@sum_over) with (@lsum). apply sum_combine.
    assert (forall l, In l ls -> is_part n l) as I by (intros l Hl; apply in_parts_n; auto). clear - Hn I FM FW PW Pp. revert Ms FM PW I. induction FW as [|l P xs w0 (A & B & C & D) FW IH]; intros Ms FM PW I; inversion FM as [|? M ? Ms' EM FM']; subst; cbn [combine]; constructor; inversion PW as [|? ? ? ? Q PW']; subst.
    + cbn [fst snd]. rewrite A in *. assert (is_part n l) as PL by (apply I; left; auto). destruct (mkirr_ok n l PL Hn) as (E & Gd). destruct (matrix_ok n l _ Gd p Pp) as (M' & EM' & _ & _ & V). rewrite EM in EM'. apply Ret_inj in EM'. subst M'.
      rewrite <- zfact_fact by lia. unfold dimR. f_equal. unfold trace. apply rsum_ext. intros a Ha. unfold mprod. apply rsum_ext. intros b Hb. rewrite Q, V by auto. reflexivity.
    + apply IH; auto. intros; apply I; right; auto.
Qed.

(* ---- what the transform does to convolutions and translations ---- *)
Section Products.
  Variables (n : Z) (l : list Z).
  Hypothesis Hn : 1 <= n.
  Hypothesis PL : is_part n l.
  Local Notation d := (io_d (mkirr n l)).
  Local Lemma HL : lists_Sn n (all_perms n). Proof. apply all_perms_lists. lia. Qed.

  Lemma four_conv (f g h : list Z -> R) i j : (forall s, is_perm n s -> h s = lsum (all_perms n) (fun t => f (pmul s (pinv t)) * g t)%R) -> 0 <= i < d ->
    four n h l i j = mprod d (four n g l) (four n f l) i j.
  Proof.
    intros H Hi. pose proof HL as HL. unfold four, mprod.
    rewrite (lsum_ext _ _ (fun s => lsum (all_perms n) (fun t => f (pmul s (pinv t)) * g t * rr n l (pinv s) i j)%R)).
    2:{ intros s Hs. apply HL in Hs. rewrite H by auto. rewrite <- lsum_scal_r. reflexivity. }
    rewrite lsum_swap.
    rewrite (lsum_ext _ _ (fun t => lsum (all_perms n) (fun u => f u * g t * lsum (zrange 0 d) (fun k => rr n l (pinv t) i k * rr n l (pinv u) k j))%R)).
    2:{ intros t Ht. apply HL in Ht. rewrite <- (sum_right n (all_perms n) HL t _ Ht). apply lsum_ext. intros u Hu. apply HL in Hu. pose proof (is_perm_pinv n t Ht). pose proof (is_perm_pinv n u Hu).
        rewrite (pmul_assoc n), (pmul_pinv_r n), (pmul_pid_r n) by auto. rewrite (pinv_pmul n) by auto. rewrite rr_mul by auto. rewrite rsum_lsum. reflexivity. }
    rewrite rsum_lsum. rewrite (lsum_ext (zrange 0 d) _ (fun k => lsum (all_perms n) (fun t => lsum (all_perms n) (fun u => g t * rr n l (pinv t) i k * (f u * rr n l (pinv u) k j))%R))).
    2:{ intros k _. rewrite <- lsum_scal_r. apply lsum_ext. intros t _. rewrite <- lsum_scal. reflexivity. }
    rewrite (lsum_swap (zrange 0 d)). apply lsum_ext. intros t _. rewrite (lsum_swap (zrange 0 d)). apply lsum_ext. intros u _. rewrite <- lsum_scal. apply lsum_ext. intros k _. ring.
  Qed.

  Lemma four_left (f h : list Z -> R) t i j : is_perm n t -> (forall s, is_perm n s -> h s = f (pmul (pinv t) s)) -> 0 <= i < d ->
    four n h l i j = mprod d (four n f l) (rr n l (pinv t)) i j.
  Proof.
    intros Ht H Hi. pose proof HL as HL. pose proof (is_perm_pinv n t Ht) as Ti. unfold four, mprod. rewrite <- (sum_left n (all_perms n) HL t _ Ht).
    rewrite (lsum_ext _ _ (fun u => lsum (zrange 0 d) (fun k => f u * rr n l (pinv u) i k * rr n l (pinv t) k j)%R)).
    2:{ intros u Hu. apply HL in Hu. pose proof (is_perm_pinv n u Hu). rewrite H by (apply (is_perm_pmul n); auto). rewrite <- (pmul_assoc n), (pmul_pinv_l n), (pmul_pid_l n) by auto. rewrite (pinv_pmul n) by auto. rewrite rr_mul by auto.
        rewrite rsum_lsum, <- lsum_scal. apply lsum_ext. intros k _. ring. }
    rewrite lsum_swap, rsum_lsum. apply lsum_ext. intros k _. rewrite <- lsum_scal_r. reflexivity.
  Qed.

  Lemma four_right (f h : list Z -> R) t i j : is_perm n t -> (forall s, is_perm n s -> h s = f (pmul s (pinv t))) -> 0 <= i < d ->
    four n h l i j = mprod d (rr n l (pinv t)) (four n f l) i j.
  Proof.
    intros Ht H Hi. pose proof HL as HL. pose proof (is_perm_pinv n t Ht) as Ti. unfold four, mprod. rewrite <- (sum_right n (all_perms n) HL t _ Ht).
    rewrite (lsum_ext _ _ (fun u => lsum (zrange 0 d) (fun k => rr n l (pinv t) i k * (f u * rr n l (pinv u) k j))%R)).
    2:{ intros u Hu. apply HL in Hu. pose proof (is_perm_pinv n u Hu). rewrite H by (apply (is_perm_pmul n); auto). rewrite (pmul_assoc n), (pmul_pinv_r n), (pmul_pid_r n) by auto. rewrite (pinv_pmul n) by auto. rewrite rr_mul by auto.
        rewrite rsum_lsum, <- lsum_scal. apply lsum_ext. intros k _. ring. }
    rewrite lsum_swap, rsum_lsum. apply lsum_ext. intros k _. rewrite <- lsum_scal. reflexivity.
  Qed.

  Lemma four_inv (f h : list Z -> R) i j : (forall s, is_perm n s -> h s = f (pinv s)) -> 0 <= i < d -> 0 <= j < d -> four n h l i j = four n f l j i.
  Proof.
    intros H Hi Hj. pose proof HL as HL. unfold four. rewrite <- (sum_inv n (all_perms n) HL). apply lsum_ext. intros s Hs. apply HL in Hs. rewrite H by (apply is_perm_pinv; auto). rewrite (pinv_involutive n) by auto. f_equal.
    destruct (mkirr_ok n l PL Hn) as (_ & G). unfold rr. symmetry. apply (rho_inv n l _ G); auto.
  Qed.
End Products.

Lemma F2_join {A B C} (R : A -> B -> Prop) (S : A -> C -> Prop) (T : B -> C -> Prop) xs ys zs : (forall x y z, In x xs -> R x y -> S x z -> T y z) -> Forall2 R xs ys -> Forall2 S xs zs -> Forall2 T ys zs.
Proof. intros H F. revert zs. induction F as [|x y xs ys R1 F IH]; intros zs G; inversion G; subst; constructor; [eapply H; eauto; left; auto|]. apply IH; auto. intros. eapply H; eauto. right; auto. Qed.

Lemma convolution_products act n f g : good_act act n -> sf_n f = n -> length (sf_v f) = fact (Z.to_nat n) -> sf_n g = n -> length (sf_v g) = fact (Z.to_nat n) ->
  exists F h wf wg wh, fft_new n = Ret F /\ sf_convolve f g = Ret h /\ fft_forward act F f = Ret wf /\ fft_forward act F g = Ret wg /\ fft_forward act F h = Ret wh /\ product_parts wg wf wh.
Proof.
  intros (Hn & HA) A B A' B'. pose proof (fun_on_is n f A B) as IF. pose proof (fun_on_is n g A' B') as IG. destruct (convolve_ok n f g IF IG Hn) as (h & E & IH & V).
  destruct (forward_n act n Hn HA f IF) as (wf & Ef & Wf). destruct (forward_n act n Hn HA g IG) as (wg & Eg & Wg). destruct (forward_n act n Hn HA h IH) as (wh & Eh & Wh).
  exists (fftn n), h, wf, wg, wh. split; [apply fft_new_ok; auto|]. repeat (split; [assumption|]).
  assert (forall l, In l (plist (Z.to_nat (n - 1))) -> is_part n l) as I by (intros l Hl; apply in_parts_n; auto).
  clear - Hn I Wf Wg Wh V. revert wg wh Wg Wh. induction Wf as [|l P ls wf (A & B & C & D) Wf IH]; intros wg wh Wg Wh; inversion Wg as [|? Q ? wg' (A1 & B1 & C1 & D1) Wg']; inversion Wh as [|? R ? wh' (A2 & B2 & C2 & D2) Wh']; subst; constructor.
  - unfold product_part. rewrite A, A1, A2. repeat split; auto. intros i j Hi Hj. rewrite D2 by auto. rewrite (four_conv n l Hn (I l (or_introl eq_refl)) (fv f) (fv g)) by auto. unfold mprod. apply rsum_ext. intros k Hk. rewrite D, D1 by auto. reflexivity.
  - apply IH; auto. intros. apply I. right; auto.
Qed.

Lemma left_translate_multiple act n f t t' : good_act act n -> sf_n f = n -> length (sf_v f) = fact (Z.to_nat n) -> is_perm n t -> is_inverse n t t' ->
  exists F h wf wh, fft_new n = Ret F /\ sf_left_translate f t = Ret h /\ fft_forward act F f = Ret wf /\ fft_forward act F h = Ret wh /\ Forall2 (right_multiple t') wf wh.
Proof.
  intros (Hn & HA) A B Pt It. pose proof (fun_on_is n f A B) as IF. destruct (left_ok n f t IF Hn Pt) as (h & E & IH & V). rewrite (is_inverse_pinv n t t' Pt It).
  destruct (forward_n act n Hn HA f IF) as (wf & Ef & Wf). destruct (forward_n act n Hn HA h IH) as (wh & Eh & Wh). exists (fftn n), h, wf, wh. split; [apply fft_new_ok; auto|]. repeat (split; [assumption|]).
  eapply F2_join; [|exact Wf|exact Wh]. intros l P Q Hl (A1 & B1 & C1 & D1) (A2 & B2 & C2 & D2). apply in_parts_n in Hl; auto. destruct (mkirr_ok n l Hl Hn) as (_ & G). destruct (matrix_ok n l _ G (pinv t) (is_perm_pinv n t Pt)) as (M & EM & _ & _ & VM).
  unfold right_multiple. rewrite A1, A2, B1, B2, C1, C2. repeat split; auto. exists M. split; auto. intros i j Hi Hj. rewrite D2 by auto. rewrite (four_left n l Hn Hl (fv f) _ t) by auto. unfold mprod. apply rsum_ext. intros k Hk. rewrite D1, VM by auto. reflexivity.
Qed.

Lemma right_translate_multiple act n f t t' : good_act act n -> sf_n f = n -> length (sf_v f) = fact (Z.to_nat n) -> is_perm n t -> is_inverse n t t' ->
  exists F h wf wh, fft_new n = Ret F /\ sf_right_translate f t = Ret h /\ fft_forward act F f = Ret wf /\ fft_forward act F h = Ret wh /\ Forall2 (left_multiple t') wf wh.
Proof.
  intros (Hn & HA) A B Pt It. pose proof (fun_on_is n f A B) as IF. destruct (right_ok n f t IF Hn Pt) as (h & E & IH & V). rewrite (is_inverse_pinv n t t' Pt It).
  destruct (forward_n act n Hn HA f IF) as (wf & Ef & Wf). destruct (forward_n act n Hn HA h IH) as (wh & Eh & Wh). exists (fftn n), h, wf, wh. split; [apply fft_new_ok; auto|]. repeat (split; [assumption|]).
  eapply F2_join; [|exact Wf|exact Wh]. intros l P Q Hl (A1 & B1 & C1 & D1) (A2 & B2 & C2 & D2). apply in_parts_n in Hl; auto. destruct (mkirr_ok n l Hl Hn) as (_ & G). destruct (matrix_ok n l _ G (pinv t) (is_perm_pinv n t Pt)) as (M & EM & _ & _ & VM).
  unfold left_multiple. rewrite A1, A2, B1, B2, C1, C2. repeat split; auto. exists M. split; auto. intros i j Hi Hj. rewrite D2 by auto. rewrite (four_right n l Hn Hl (fv f) _ t) by auto. unfold mprod. apply rsum_ext. intros k Hk. rewrite D1, VM by auto. reflexivity.
Qed.

Lemma inverse_transpose act n f : good_act act n -> sf_n f = n -> length (sf_v f) = fact (Z.to_nat n) ->
  exists F h wf wh, fft_new n = Ret F /\ sf_inv f = Ret h /\ fft_forward act F f = Ret wf /\ fft_forward act F h = Ret wh /\ Forall2 transposed_part wf wh.
Proof.
  intros (Hn & HA) A B. pose proof (fun_on_is n f A B) as IF. destruct (inv_ok n f IF Hn) as (h & E & IH & V).
  destruct (forward_n act n Hn HA f IF) as (wf & Ef & Wf). destruct (forward_n act n Hn HA h IH) as (wh & Eh & Wh). exists (fftn n), h, wf, wh. split; [apply fft_new_ok; auto|]. repeat (split; [assumption|]).
  eapply F2_join; [|exact Wf|exact Wh]. intros l P Q Hl (A1 & B1 & C1 & D1) (A2 & B2 & C2 & D2). apply in_parts_n in Hl; auto.
  unfold transposed_part. rewrite A1, A2, B1, B2, C1, C2. repeat split; auto. intros i j Hi Hj. rewrite D2 by auto. rewrite (four_inv n l Hn Hl (fv f)) by auto. unfold mtrans. rewrite D1 by auto. reflexivity.
Qed.
