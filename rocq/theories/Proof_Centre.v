(* Class functions on Sn: their transforms are scalar, they commute with every function, characters are their idempotents. *)
From Coq Require Import ZArith List Bool Lia ZifyBool ZifyNat Reals Lra Sorted Permutation.
From Verif Require Import Model_Base Model_Perm Model_Sn Model_Part Model_Comb Model_Tab Model_Irrep Model_Fun Model_FFT.
From Verif Require Import Spec_Perm Spec_Part Spec_Tab Spec_Rep Spec_Four Spec_Fun Spec_FFT Spec_Centre.
From Verif Require Import Proof_Base Proof_Perm Proof_Sn Proof_Part Proof_PartProps Proof_Tab Proof_TabProps Proof_Cycles Proof_Cox Proof_Yor Proof_Sum
  Proof_Irrep Proof_Rep Proof_Mat Proof_IrrepProps Proof_JM Proof_Conn Proof_Schur Proof_Restr Proof_UpDown Proof_Complete Proof_View Proof_ViewProps
  Proof_Fun Proof_FFTlay Proof_FFTblk Proof_FFTact Proof_FFTstep Proof_FFTmath Proof_FFT Proof_FFTprops Proof_FFTprops2 Proof_Char Proof_Class3 Proof_CG Proof_CGdown Proof_Kron.
Import ListNotations.
Open Scope Z_scope.

Lemma conj_of n s p q : is_perm n s -> is_perm n p -> is_perm n q -> (forall x, 1 <= x <= n -> img s (img p x) = img q (img s x)) -> q = pmul s (pmul p (pinv s)).
Proof.
  intros Hs Hp Hq H. pose proof (is_perm_pinv n s Hs) as Hs'. assert (pmul s p = pmul q s) as E.
  { apply (perm_ext n); [apply is_perm_len, is_perm_pmul; auto|apply is_perm_len, is_perm_pmul; auto|]. intros x Hx. rewrite !img_pmul by (rewrite (is_perm_len n); auto). auto. }
  rewrite <- (pmul_assoc n), E, (pmul_assoc n), (pmul_pinv_r n), (pmul_pid_r n) by auto. reflexivity.
Qed.
Lemma conj_img n s p x : is_perm n s -> is_perm n p -> 1 <= x <= n -> img s (img p x) = img (pmul s (pmul p (pinv s))) (img s x).
Proof.
  intros Hs Hp Hx. pose proof (is_perm_pinv n s Hs) as Hs'. rewrite <- !img_pmul by (rewrite (is_perm_len n); auto). f_equal.
  rewrite !(pmul_assoc n), (pmul_pinv_l n), (pmul_pid_r n) by auto using is_perm_pmul. reflexivity.
Qed.

Lemma on_is n f : on_group n f -> is_fun n f.
Proof. intros (A & B). apply fun_on_is; auto. Qed.

Lemma class_iff n f : 1 <= n -> is_fun n f -> (class_function n f <-> class_fun n (fv f)).
Proof.
  intros Hn IF. split.
  - intros C g p Hg Hp. pose proof (is_perm_pinv n g Hg) as Hg'. assert (is_perm n (pmul g (pmul p (pinv g)))) as Q by auto using is_perm_pmul.
    destruct (proj1 (conj_iff n p _ Hp Q)) as (mu & Pm & T & T'). { exists g. split; auto. intros x Hx. apply (conj_img n); auto. }
    specialize (C _ _ mu Pm T' T). rewrite !(sf_at_ok n) in C by auto. apply Ret_inj in C. exact C.
  - intros C p q mu Pm T T'. assert (is_perm n p) as Hp by apply T. assert (is_perm n q) as Hq by apply T'. destruct (proj2 (conj_iff n p q Hp Hq)) as (s & Hs & E); [eauto|].
    apply (conj_of n) in E; auto. subst q. rewrite !(sf_at_ok n) by auto. f_equal. symmetry. apply C; auto.
Qed.

(* the coefficient of a class function *)
Definition coef (n : Z) (G : list Z -> R) (l : list Z) : R := (/ dimR n l * lsum (all_perms n) (fun h => G h * chi n l h))%R.

Lemma chi_inv n l p : 1 <= n -> is_part n l -> is_perm n p -> chi n l (pinv p) = chi n l p.
Proof. intros Hn P Hp. unfold chi, trace. apply rsum_ext. intros i Hi. apply rr_inv; auto. Qed.

Lemma class_inv n phi : class_fun n phi -> class_fun n (fun p => phi (pinv p)).
Proof.
  intros C g p Hg Hp. pose proof (is_perm_pinv n g Hg) as Hg'. pose proof (is_perm_pinv n p Hp) as Hp'. rewrite (pinv_pmul n), (pinv_pmul n), (pinv_involutive n), (pmul_assoc n) by auto using is_perm_pmul. apply C; auto.
Qed.

Lemma class_four n G l i j : 1 <= n -> class_fun n G -> is_part n l -> 0 <= i < io_d (mkirr n l) -> 0 <= j < io_d (mkirr n l) -> four n G l i j = if Z.eq_dec i j then coef n G l else 0%R.
Proof.
  intros Hn C P Hi Hj. pose proof (all_perms_lists n ltac:(lia)) as HL. unfold four. rewrite <- (sum_inv n _ HL (fun p => G p * rr n l (pinv p) i j)%R).
  rewrite (lsum_ext _ _ (fun p => G (pinv p) * rr n l p i j)%R). 2:{ intros p Hp. apply HL in Hp. rewrite (pinv_involutive n) by auto. reflexivity. }
  rewrite (class_coeff n Hn (fun p => G (pinv p))) by (auto using class_inv). unfold coef. destruct (Z.eq_dec i j); [|reflexivity]. f_equal.
  rewrite <- (sum_inv n _ HL). apply lsum_ext. intros p Hp. apply HL in Hp. rewrite (pinv_involutive n), chi_inv by auto. reflexivity.
Qed.

Lemma coef_dim n G l : 1 <= n -> is_part n l -> (coef n G l * IZR (io_d (mkirr n l)) = lsum (all_perms n) (fun h => G h * chi n l h))%R.
Proof. intros Hn P. pose proof (dimR_pos n l P Hn) as D. unfold coef. change (IZR (io_d (mkirr n l))) with (dimR n l). field. lra. Qed.

(* characters are chi *)
Lemma char_chi n l p mu x : 1 <= n -> is_part n l -> is_part n mu -> cycle_type n p mu -> irr_character (mkirr n l) mu = Ret x -> x = chi n l p.
Proof.
  intros Hn P Pm T E. destruct (mkirr_ok n l P Hn) as (E1 & G). destruct (character_is_trace n l _ p mu P Hn E1 Pm T) as (M & y & EM & Ey & V). rewrite E in Ey. apply Ret_inj in Ey. subst y.
  apply (irrep_trace_chi n l p Hn P (proj1 T) x). exists (mkirr n l), M. auto.
Qed.
Lemma char_total n l mu p : 1 <= n -> is_part n l -> is_part n mu -> cycle_type n p mu -> irr_character (mkirr n l) mu = Ret (chi n l p).
Proof.
  intros Hn P Pm T. destruct (mkirr_ok n l P Hn) as (E1 & G). destruct (character_is_trace n l _ p mu P Hn E1 Pm T) as (M & y & EM & Ey & V). rewrite Ey. f_equal. eapply char_chi; eauto.
Qed.

(* functions with the same transform are equal *)
Lemma four_inj n G H p : 1 <= n -> (forall l i j, is_part n l -> 0 <= i < io_d (mkirr n l) -> 0 <= j < io_d (mkirr n l) -> four n G l i j = four n H l i j) -> is_perm n p -> G p = H p.
Proof.
  intros Hn E Hp. destruct (good_rows n Hn) as (_ & HA). destruct (forward_n _ n Hn HA (of_fun n G) (of_fun_is n G)) as (w & _ & W).
  pose proof (inverse_n _ n Hn HA _ w (of_fun_is n G) W) as I. assert (Forall2 (fpart n (fv (of_fun n H))) (plist (Z.to_nat (n - 1))) w) as W'.
  { eapply F2_impl; [|exact W]. intros l P Hl (A & B & C & D). apply in_parts_n in Hl; auto. split; auto. split; auto. split; auto. intros i j Hi Hj. rewrite D by auto.
    rewrite (four_ext n _ G), (four_ext n (fv (of_fun n H)) H) by (lia || (intros; apply of_fun_at; auto)). auto. }
  pose proof (inverse_n _ n Hn HA _ w (of_fun_is n H) W') as I'. rewrite I in I'. apply Ret_inj in I'. rewrite <- (of_fun_at n G p Hp), <- (of_fun_at n H p Hp), I'. reflexivity.
Qed.

Lemma scalar_forward act n f : good_act act n -> on_group n f -> class_function n f ->
  exists F ls w, fft_new n = Ret F /\ integer_partitions n = Ret ls /\ fft_forward act F f = Ret w /\ Forall2 (scalar_coefficient n f) ls w.
Proof.
  intros (Hn & HA) O C. pose proof (on_is n f O) as IF. apply class_iff in C; auto. destruct (forward_n act n Hn HA f IF) as (w & E & W). exists (fftn n), (plist (Z.to_nat (n - 1))), w.
  split; [apply fft_new_ok; auto|]. split; [apply integer_partitions_ok; auto|]. split; auto. eapply F2_impl; [|exact W]. intros l P Hl (A & B & D & V). apply in_parts_n in Hl; auto. unfold scalar_coefficient, scalar_part. rewrite A.
  destruct (mkirr_ok n l Hl Hn) as (E1 & Gd). split; auto. exists (coef n (fv f) l). split.
  - split; auto. split; auto. intros i j Hi Hj. rewrite V by auto. apply class_four; auto.
  - intros L G X HL HG HX. rewrite coef_dim by auto. change (@sum_over) with (@lsum). rewrite (lsum_Permutation _ _ _ (lists_Sn_Permutation n _ _ (all_perms_lists n ltac:(lia)) HL)). apply lsum_ext. intros p Hp.
    pose proof (HG p Hp) as Q. pose proof (proj1 (proj2 HL p) Hp) as Pp. rewrite (sf_at_ok n) in Q by auto. apply Ret_inj in Q. rewrite Q. f_equal. destruct (one_class n p Pp) as (mu & Pm & T & _). symmetry. eapply char_chi; eauto.
Qed.

Lemma rsum_delta_l d (f : Z -> R) c i : 0 <= i < d -> rsum d (fun k => ((if Z.eq_dec i k then c else 0) * f k))%R = (c * f i)%R.
Proof. intros H. rewrite rsum_lsum, (lsum_single _ i); [|apply NoDup_zrange|apply in_zrange; auto|]. - destruct (Z.eq_dec i i); [auto|contradiction]. - intros y _ Ne. destruct (Z.eq_dec i y); [congruence|ring]. Qed.
Lemma rsum_delta_r d (f : Z -> R) c j : 0 <= j < d -> rsum d (fun k => (f k * (if Z.eq_dec k j then c else 0)))%R = (c * f j)%R.
Proof. intros H. rewrite rsum_lsum, (lsum_single _ j); [|apply NoDup_zrange|apply in_zrange; auto|]. - destruct (Z.eq_dec j j); [ring|contradiction]. - intros y _ Ne. destruct (Z.eq_dec y j); [congruence|ring]. Qed.

(* scalar in every part: the function is a class function *)
Lemma scalar_class n G : 1 <= n -> (forall l, is_part n l -> exists c, forall i j, 0 <= i < io_d (mkirr n l) -> 0 <= j < io_d (mkirr n l) -> four n G l i j = if Z.eq_dec i j then c else 0%R) -> class_fun n G.
Proof.
  intros Hn S g p Hg Hp. pose proof (is_perm_pinv n g Hg) as Hg'. set (H := fun p => G (pmul g (pmul p (pinv g)))). change (H p = G p). apply (four_inj n); auto. intros l i j P Hi Hj. destruct (S l P) as (c & V).
  rewrite (four_right n l Hn P (fun x => G (pmul g x)) H g i j) by (auto; intros; reflexivity). unfold mprod.
  assert (forall k, 0 <= k < io_d (mkirr n l) -> four n (fun x => G (pmul g x)) l k j = (c * rr n l g k j)%R) as E.
  { intros k Hk. rewrite (four_left n l Hn P G _ (pinv g) k j); auto. 2:{ intros s _. rewrite (pinv_involutive n) by auto. reflexivity. }
    unfold mprod. rewrite (rsum_ext _ _ (fun m => (if Z.eq_dec k m then c else 0) * rr n l (pinv (pinv g)) m j)%R) by (intros m Hm; rewrite V by auto; reflexivity). rewrite rsum_delta_l, (pinv_involutive n) by auto. reflexivity. }
  rewrite (rsum_ext _ _ (fun k => c * (rr n l (pinv g) i k * rr n l g k j))%R) by (intros k Hk; rewrite E by auto; ring). rewrite rsum_lsum, lsum_scal, <- rsum_lsum. rewrite <- (rr_mul n Hn l) by auto. rewrite (pmul_pinv_l n), (rr_id n Hn) by auto. rewrite V by auto.
  unfold delta. destruct (Z.eq_dec i j); ring.
Qed.

Lemma scalar_backward act n f F w : good_act act n -> on_group n f -> fft_new n = Ret F -> fft_forward act F f = Ret w -> (forall P, In P w -> exists c, scalar_part c P) -> class_function n f.
Proof.
  intros (Hn & HA) O EF E S. pose proof (on_is n f O) as IF. rewrite fft_new_ok in EF by auto. apply Ret_inj in EF. subst F. destruct (forward_n act n Hn HA f IF) as (w' & E' & W). change (mkFft n (-1) (map (level 1) (seq 0 (Z.to_nat n)))) with (fftn n) in E. rewrite E in E'. apply Ret_inj in E'. subst w'.
  apply class_iff; auto. apply scalar_class; auto. intros l P. apply in_parts_n in P; auto. clear E. induction W as [|a Q ls w H W IH]; [destruct P|]. destruct P as [->|P].
  - destruct (S Q) as (c & A & B & C); [left; auto|]. destruct H as (D & _ & _ & V). rewrite D in *. exists c. intros i j Hi Hj. rewrite <- V by auto. auto.
  - apply IH; auto. intros R HR. apply S. right; auto.
Qed.

(* class functions commute with every function *)
Lemma class_commutes n f g : 1 <= n -> on_group n f -> on_group n g -> class_function n f -> exists h, sf_convolve f g = Ret h /\ sf_convolve g f = Ret h.
Proof.
  intros Hn O O' C. pose proof (on_is n f O) as IF. pose proof (on_is n g O') as IG. apply class_iff in C; auto. destruct (convolve_ok n f g IF IG Hn) as (h & E & H & V). destruct (convolve_ok n g f IG IF Hn) as (h' & E' & H' & V').
  exists h. split; auto. rewrite E'. f_equal. apply (fun_ext n); auto. intros s Hs. apply (four_inj n); auto. intros l i j P Hi Hj.
  rewrite (four_conv n l Hn P (fv g) (fv f) (fv h') i j V' Hi), (four_conv n l Hn P (fv f) (fv g) (fv h) i j V Hi). unfold mprod.
  rewrite (rsum_ext _ (fun k => four n (fv f) l i k * four n (fv g) l k j)%R (fun k => (if Z.eq_dec i k then coef n (fv f) l else 0) * four n (fv g) l k j)%R) by (intros k Hk; rewrite class_four by auto; reflexivity).
  rewrite (rsum_ext _ (fun k => four n (fv g) l i k * four n (fv f) l k j)%R (fun k => four n (fv g) l i k * (if Z.eq_dec k j then coef n (fv f) l else 0))%R) by (intros k Hk; rewrite (class_four n (fv f)) by auto; reflexivity).
  rewrite rsum_delta_l, rsum_delta_r by auto. reflexivity.
Qed.

(* and only they do *)
Lemma commutes_class n f : 1 <= n -> on_group n f -> (forall g, on_group n g -> exists h, sf_convolve f g = Ret h /\ sf_convolve g f = Ret h) -> class_function n f.
Proof.
  intros Hn O C. pose proof (on_is n f O) as IF. apply class_iff; auto. intros g p Hg Hp. pose proof (is_perm_pinv n g Hg) as Hg'. pose proof (all_perms_lists n ltac:(lia)) as HL.
  set (D := fun x => if list_eq_dec Z.eq_dec x (pinv g) then 1%R else 0%R). destruct (C (of_fun n D) (is_fun_on n _ (of_fun_is n D))) as (h & E & E').
  destruct (convolve_ok n f _ IF (of_fun_is n D) Hn) as (h1 & E1 & _ & V). destruct (convolve_ok n _ f (of_fun_is n D) IF Hn) as (h2 & E2 & _ & V'). rewrite E in E1. rewrite E' in E2. apply Ret_inj in E1, E2. subst h1 h2.
  set (s := pmul p (pinv g)). assert (is_perm n s) as Hs by (apply is_perm_pmul; auto). specialize (V s Hs). specialize (V' s Hs). rewrite V in V'. clear V.
  rewrite (lsum_single _ (pinv g)) in V'; [|apply HL|apply HL; auto|]. 2:{ intros t Ht Ne. apply HL in Ht. rewrite of_fun_at by auto. unfold D. destruct (list_eq_dec Z.eq_dec t (pinv g)); [contradiction|ring]. }
  rewrite (lsum_single _ (pmul g s)) in V'; [|apply HL|apply HL; apply is_perm_pmul; auto|].
  2:{ intros t Ht Ne. apply HL in Ht. pose proof (is_perm_pinv n t Ht). rewrite of_fun_at by (apply is_perm_pmul; auto). unfold D. destruct (list_eq_dec Z.eq_dec (pmul s (pinv t)) (pinv g)) as [Q|]; [|ring]. destruct Ne.
      assert (s = pmul (pinv g) t) as ->. { rewrite <- Q, (pmul_assoc n), (pmul_pinv_l n), (pmul_pid_r n) by auto. reflexivity. } rewrite <- (pmul_assoc n), (pmul_pinv_r n), (pmul_pid_l n) by auto. reflexivity. }
  rewrite !of_fun_at in V' by (auto using is_perm_pmul, is_perm_pinv). unfold D in V'.
  assert (pmul s (pinv (pmul g s)) = pinv g) as Q. { rewrite (pinv_pmul n), <- (pmul_assoc n), (pmul_pinv_r n), (pmul_pid_l n) by auto using is_perm_pinv. reflexivity. } rewrite Q in V'.
  destruct (list_eq_dec Z.eq_dec (pinv g) (pinv g)); [|contradiction]. rewrite (pinv_involutive n) in V' by auto. fold s. rewrite !Rmult_1_r, Rmult_1_l in V'. rewrite <- V'. unfold s. rewrite (pmul_assoc n), (pmul_pinv_l n), (pmul_pid_r n) by auto. reflexivity.
Qed.

(* characters *)
Lemma character_fv n l f : 1 <= n -> is_part n l -> is_fun n f -> character_function n l f -> forall p, is_perm n p -> fv f p = chi n l p.
Proof.
  intros Hn P IF (o & Eo & V) p Hp. destruct (mkirr_ok n l P Hn) as (E1 & _). rewrite E1 in Eo. apply Ret_inj in Eo. subst o. destruct (one_class n p Hp) as (mu & Pm & T & _). specialize (V p mu Pm T). rewrite (sf_at_ok n) in V by auto.
  symmetry in V. eapply char_chi; eauto.
Qed.
Lemma character_exists n l : 1 <= n -> is_part n l -> exists f, on_group n f /\ character_function n l f.
Proof.
  intros Hn P. exists (of_fun n (chi n l)). split; [apply is_fun_on, of_fun_is|]. destruct (mkirr_ok n l P Hn) as (E1 & _). exists (mkirr n l). split; auto. intros p mu Pm T. pose proof (proj1 T) as Hp.
  rewrite (sf_at_ok n), of_fun_at by (auto using of_fun_is). symmetry. apply char_total; auto.
Qed.
Lemma coef_chi n a l G : 1 <= n -> is_part n a -> is_part n l -> (forall p, is_perm n p -> G p = chi n a p) -> coef n G l = (if list_eq_dec Z.eq_dec a l then IZR (zfact n) / dimR n a else 0)%R.
Proof.
  intros Hn Pa P HG. pose proof (dimR_pos n l P Hn) as D. unfold coef. rewrite (lsum_ext _ _ (fun h => chi n a h * chi n l h)%R). 2:{ intros p Hp. apply (all_perms_lists n ltac:(lia)) in Hp. rewrite HG by auto. reflexivity. }
  rewrite chi_orth by auto. destruct (Proof_Type.pdec a l), (list_eq_dec Z.eq_dec a l); try congruence; [subst; field; lra|ring].
Qed.
Lemma character_class n l f : 1 <= n -> is_part n l -> on_group n f -> character_function n l f -> class_function n f.
Proof. intros Hn P O (o & _ & V) p q mu Pm T T'. rewrite (V p mu), (V q mu) by auto. reflexivity. Qed.

Lemma character_transform act n a f o : good_act act n -> is_part n a -> on_group n f -> character_function n a f -> irr_new a = Ret o ->
  exists F ls w, fft_new n = Ret F /\ integer_partitions n = Ret ls /\ fft_forward act F f = Ret w /\
    Forall2 (fun l P => irr_new l = Ret (sp_irr P) /\ (l = a -> scalar_part (INR (fact (Z.to_nat n)) / IZR (io_d o))%R P) /\ (l <> a -> scalar_part 0%R P)) ls w.
Proof.
  intros (Hn & HA) Pa O C Eo. rewrite <- zfact_fact by lia. pose proof (on_is n f O) as IF. pose proof (character_fv n a f Hn Pa IF C) as V. pose proof (character_class n a f Hn Pa O C) as K. apply class_iff in K; auto. destruct (mkirr_ok n a Pa Hn) as (Ea & _). rewrite Ea in Eo. apply Ret_inj in Eo. subst o.
  destruct (forward_n act n Hn HA f IF) as (w & E & W). exists (fftn n), (plist (Z.to_nat (n - 1))), w.
  split; [apply fft_new_ok; auto|]. split; [apply integer_partitions_ok; auto|]. split; auto. eapply F2_impl; [|exact W]. intros l P Hl (A & B & D & U). apply in_parts_n in Hl; auto. unfold scalar_part. rewrite A. destruct (mkirr_ok n l Hl Hn) as (E1 & _). split; auto.
  assert (forall i j, 0 <= i < io_d (mkirr n l) -> 0 <= j < io_d (mkirr n l) -> m_at (sp_mat P) i j = (if Z.eq_dec i j then (if list_eq_dec Z.eq_dec a l then IZR (zfact n) / dimR n a else 0) else 0)%R) as Z0. { intros i j Hi Hj. rewrite U, class_four, (coef_chi n a) by auto. reflexivity. }
  split; intros Q; (split; [exact B|]; split; [exact D|]); intros i j Hi Hj; rewrite Z0 by auto; destruct (Z.eq_dec i j); auto; destruct (list_eq_dec Z.eq_dec a l); try congruence. reflexivity.
Qed.

Lemma character_product n a b f g h o : 1 <= n -> is_part n a -> is_part n b -> on_group n f -> on_group n g -> character_function n a f -> character_function n b g -> irr_new a = Ret o -> sf_convolve f g = Ret h ->
  forall p, is_perm n p -> exists x, sf_at f p = Ret x /\ sf_at h p = Ret (if list_eq_dec Z.eq_dec a b then INR (fact (Z.to_nat n)) / IZR (io_d o) * x else 0)%R.
Proof.
  intros Hn Pa Pb O O' Ca Cb Eo Eh p Hp. rewrite <- zfact_fact by lia. pose proof (on_is n f O) as IF. pose proof (on_is n g O') as IG. destruct (mkirr_ok n a Pa Hn) as (Ea & _). rewrite Ea in Eo. apply Ret_inj in Eo. subst o.
  pose proof (character_fv n a f Hn Pa IF Ca) as Va. pose proof (character_fv n b g Hn Pb IG Cb) as Vb. pose proof (character_class n a f Hn Pa O Ca) as Ka. pose proof (character_class n b g Hn Pb O' Cb) as Kb. apply class_iff in Ka; auto. apply class_iff in Kb; auto.
  destruct (convolve_ok n f g IF IG Hn) as (h' & E & H & V). rewrite Eh in E. apply Ret_inj in E. subst h'. exists (fv f p). rewrite !(sf_at_ok n) by auto. split; auto. f_equal.
  apply (four_inj n (fv h) (fun p => if list_eq_dec Z.eq_dec a b then IZR (zfact n) / IZR (io_d (mkirr n a)) * fv f p else 0)%R); auto. intros l i j P Hi Hj. rewrite (four_conv n l Hn P (fv f) (fv g) (fv h) i j V Hi). unfold mprod.
  rewrite (rsum_ext _ _ (fun k => (if Z.eq_dec i k then coef n (fv g) l else 0) * four n (fv f) l k j)%R) by (intros k Hk; rewrite class_four by auto; reflexivity). rewrite rsum_delta_l, class_four by auto. rewrite (coef_chi n b), (coef_chi n a) by auto.
  assert (four n (fun p => if list_eq_dec Z.eq_dec a b then IZR (zfact n) / IZR (io_d (mkirr n a)) * fv f p else 0)%R l i j = (if list_eq_dec Z.eq_dec a b then IZR (zfact n) / dimR n a * (if Z.eq_dec i j then (if list_eq_dec Z.eq_dec a l then IZR (zfact n) / dimR n a else 0) else 0) else 0)%R) as ->.
  { destruct (list_eq_dec Z.eq_dec a b); [|unfold four; apply lsum_0; intros; ring]. rewrite <- (coef_chi n a l (fv f)) by auto. rewrite <- class_four by auto. unfold four. rewrite <- lsum_scal. apply lsum_ext. intros. unfold dimR. ring. }
  destruct (list_eq_dec Z.eq_dec a b), (list_eq_dec Z.eq_dec b l), (list_eq_dec Z.eq_dec a l), (Z.eq_dec i j); try congruence; try ring.
Qed.

(* a class function on S3 and a function that is not one *)
Definition cls3 : sfun := mkFun 3 [7; 2; 2; 5; 5; 2]%R.
Definition odd3 : sfun := mkFun 3 [0; 1; 0; 0; 0; 0]%R.
Lemma cls3_class : on_group 3 cls3 /\ class_function 3 cls3.
Proof.
  split; [split; reflexivity|]. apply class_iff; [lia|split; reflexivity|]. set (val := [7; 2; 2; 5; 5; 2]).
  assert (forallb (fun g => forallb (fun p => znth val (idn 3 (pmul g (pmul p (pinv g)))) 0 =? znth val (idn 3 p) 0) (all_perms 3)) (all_perms 3) = true) as K by (vm_compute; reflexivity).
  rewrite forallb_forall in K. intros g p Hg Hp. pose proof (all_perms_lists 3 ltac:(lia)) as HL. pose proof (K g (proj2 (proj2 HL g) Hg)) as K'. cbv beta in K'. rewrite forallb_forall in K'. specialize (K' p (proj2 (proj2 HL p) Hp)). apply Z.eqb_eq in K'.
  assert (forall k, znth (map IZR val) k (IZR 0) = IZR (znth val k 0)) as M. { intros k. unfold znth. apply map_nth. }
  unfold fv. change (sf_v cls3) with (map IZR val). change 0%R with (IZR 0). rewrite !M. f_equal. exact K'.
Qed.
Lemma odd3_not : on_group 3 odd3 /\ ~ class_function 3 odd3.
Proof.
  split; [split; reflexivity|]. intros C. assert (is_fun 3 odd3) as IF by (split; reflexivity). apply class_iff in C; [|lia|auto]. 
  assert (is_perm 3 [2;1;3]) as P by (apply (all_perms_lists 3 ltac:(lia)); vm_compute; auto). assert (is_perm 3 [3;2;1]) as Q by (apply (all_perms_lists 3 ltac:(lia)); vm_compute; tauto). specialize (C _ _ Q P).
  unfold fv in C. change (idn (Z.to_nat (sf_n odd3)) (pmul [3;2;1] (pmul [2;1;3] (pinv [3;2;1])))) with 2 in C. change (idn (Z.to_nat (sf_n odd3)) [2;1;3]) with 1 in C. change (0 = 1)%R in C. lra.
Qed.
