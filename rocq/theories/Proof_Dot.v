(* Inner products of functions on Sn: the adjoints of the operations, and Plancherel's formula. *)
From Coq Require Import ZArith List Bool Lia ZifyBool ZifyNat Reals Lra Sorted Permutation.
From Verif Require Import Model_Base Model_Perm Model_Sn Model_Part Model_Comb Model_Tab Model_Irrep Model_Fun Model_FFT.
From Verif Require Import Spec_Perm Spec_Part Spec_Tab Spec_Rep Spec_Four Spec_Fun Spec_FFT.
From Verif Require Import Proof_Base Proof_Perm Proof_Sn Proof_Part Proof_PartProps Proof_Tab Proof_TabProps Proof_Cycles Proof_Cox Proof_Yor Proof_Sum
  Proof_Irrep Proof_Rep Proof_Mat Proof_IrrepProps Proof_JM Proof_Conn Proof_Schur Proof_Restr Proof_UpDown Proof_Complete Proof_View Proof_ViewProps
  Proof_Fun Proof_FFTlay Proof_FFTblk Proof_FFTact Proof_FFTstep Proof_FFTmath Proof_FFT Proof_FFTprops Proof_FFTprops2 Proof_Kron.
Import ListNotations.
Open Scope Z_scope.

Lemma dot_seq : forall v w, length v = length w -> dot v w = fold_right Rplus 0%R (map (fun k => (nth k v 0 * nth k w 0)%R) (seq 0 (length v))).
Proof.
  induction v as [|x v IH]; intros [|y w] E; try discriminate E; [reflexivity|]. cbn [length] in *. unfold dot in *. cbn [combine map fold_right seq]. rewrite IH by lia. rewrite <- seq_shift, map_map. reflexivity.
Qed.
Lemma dot_zrange v w N : zlen v = N -> zlen w = N -> dot v w = lsum (zrange 0 N) (fun i => znth v i 0 * znth w i 0)%R.
Proof.
  intros Hv Hw. unfold zlen in *. rewrite dot_seq by lia. rewrite <- rsum_lsum. unfold rsum. subst N. rewrite Nat2Z.id. f_equal. apply map_ext. intros k. unfold znth. rewrite Nat2Z.id. reflexivity.
Qed.

Lemma dot_sum n f g : is_fun n f -> is_fun n g -> 1 <= n -> dot (sf_v f) (sf_v g) = lsum (all_perms n) (fun p => fv f p * fv g p)%R.
Proof.
  intros (Ef & F) (Eg & G) Hn. rewrite (dot_zrange _ _ (zfact n)) by auto. rewrite <- lsum_elements. apply lsum_ext. intros i Hi. apply in_zrange in Hi. unfold fv. rewrite Ef, Eg, idn_elt_z by lia. reflexivity.
Qed.

Lemma left_adjoint n f g t t' : 1 <= n -> sf_n f = n -> length (sf_v f) = fact (Z.to_nat n) -> sf_n g = n -> length (sf_v g) = fact (Z.to_nat n) -> is_perm n t -> is_inverse n t t' ->
  exists a b, sf_left_translate f t = Ret a /\ sf_left_translate g t' = Ret b /\ dot (sf_v a) (sf_v g) = dot (sf_v f) (sf_v b).
Proof.
  intros Hn A B A' B' T I. apply is_inverse_pinv in I; auto. subst t'. pose proof (fun_on_is n f A B) as IF. pose proof (fun_on_is n g A' B') as IG. pose proof (is_perm_pinv n t T) as T'. pose proof (all_perms_lists n ltac:(lia)) as HL.
  destruct (left_ok n f t IF Hn T) as (a & E & Ha & V). destruct (left_ok n g (pinv t) IG Hn T') as (b & E' & Hb & V'). exists a, b. split; [exact E|]. split; [exact E'|]. rewrite !(dot_sum n) by auto.
  rewrite <- (sum_left n _ HL t (fun p => fv a p * fv g p)%R T). apply lsum_ext. intros p Hp. apply HL in Hp. rewrite V by (apply (is_perm_pmul n); auto). rewrite V' by auto. rewrite (pinv_involutive n) by auto. rewrite <- (pmul_assoc n), (pmul_pinv_l n), (pmul_pid_l n) by auto. reflexivity.
Qed.

Lemma right_adjoint n f g t t' : 1 <= n -> sf_n f = n -> length (sf_v f) = fact (Z.to_nat n) -> sf_n g = n -> length (sf_v g) = fact (Z.to_nat n) -> is_perm n t -> is_inverse n t t' ->
  exists a b, sf_right_translate f t = Ret a /\ sf_right_translate g t' = Ret b /\ dot (sf_v a) (sf_v g) = dot (sf_v f) (sf_v b).
Proof.
  intros Hn A B A' B' T I. apply is_inverse_pinv in I; auto. subst t'. pose proof (fun_on_is n f A B) as IF. pose proof (fun_on_is n g A' B') as IG. pose proof (is_perm_pinv n t T) as T'. pose proof (all_perms_lists n ltac:(lia)) as HL.
  destruct (right_ok n f t IF Hn T) as (a & E & Ha & V). destruct (right_ok n g (pinv t) IG Hn T') as (b & E' & Hb & V'). exists a, b. split; [exact E|]. split; [exact E'|]. rewrite !(dot_sum n) by auto.
  rewrite <- (sum_right n _ HL t (fun p => fv a p * fv g p)%R T). apply lsum_ext. intros p Hp. apply HL in Hp. rewrite V by (apply (is_perm_pmul n); auto). rewrite V' by auto. rewrite (pinv_involutive n) by auto. rewrite (pmul_assoc n), (pmul_pinv_r n), (pmul_pid_r n) by auto. reflexivity.
Qed.

Lemma inv_adjoint n f g : 1 <= n -> sf_n f = n -> length (sf_v f) = fact (Z.to_nat n) -> sf_n g = n -> length (sf_v g) = fact (Z.to_nat n) ->
  exists a b, sf_inv f = Ret a /\ sf_inv g = Ret b /\ dot (sf_v a) (sf_v g) = dot (sf_v f) (sf_v b).
Proof.
  intros Hn A B A' B'. pose proof (fun_on_is n f A B) as IF. pose proof (fun_on_is n g A' B') as IG. pose proof (all_perms_lists n ltac:(lia)) as HL.
  destruct (inv_ok n f IF Hn) as (a & E & Ha & V). destruct (inv_ok n g IG Hn) as (b & E' & Hb & V'). exists a, b. split; [exact E|]. split; [exact E'|]. rewrite !(dot_sum n) by auto.
  rewrite <- (sum_inv n _ HL (fun p => fv a p * fv g p)%R). apply lsum_ext. intros p Hp. apply HL in Hp. rewrite V by (apply is_perm_pinv; auto). rewrite V' by auto. rewrite (pinv_involutive n) by auto. reflexivity.
Qed.

(* <f*g, h> = <f, h*inv(g)> = <g, inv(f)*h> *)
Lemma convolve_adjoint n f g h : 1 <= n -> sf_n f = n -> length (sf_v f) = fact (Z.to_nat n) -> sf_n g = n -> length (sf_v g) = fact (Z.to_nat n) -> sf_n h = n -> length (sf_v h) = fact (Z.to_nat n) ->
  exists c fi gi a b, sf_convolve f g = Ret c /\ sf_inv f = Ret fi /\ sf_inv g = Ret gi /\ sf_convolve h gi = Ret a /\ sf_convolve fi h = Ret b /\
    dot (sf_v c) (sf_v h) = dot (sf_v f) (sf_v a) /\ dot (sf_v c) (sf_v h) = dot (sf_v g) (sf_v b).
Proof.
  intros Hn A B A' B' A'' B''. pose proof (fun_on_is n f A B) as IF. pose proof (fun_on_is n g A' B') as IG. pose proof (fun_on_is n h A'' B'') as IH. pose proof (all_perms_lists n ltac:(lia)) as HL.
  destruct (convolve_ok n f g IF IG Hn) as (c & Ec & Hc & Vc). destruct (inv_ok n f IF Hn) as (fi & Ef & Hf & Vf). destruct (inv_ok n g IG Hn) as (gi & Eg & Hg & Vg).
  destruct (convolve_ok n h gi IH Hg Hn) as (a & Ea & Ha & Va). destruct (convolve_ok n fi h Hf IH Hn) as (b & Eb & Hb & Vb). exists c, fi, gi, a, b. split; [exact Ec|]. split; [exact Ef|]. split; [exact Eg|]. split; [exact Ea|]. split; [exact Eb|]. rewrite !(dot_sum n) by auto.
  assert (lsum (all_perms n) (fun p => fv c p * fv h p)%R = lsum (all_perms n) (fun t => lsum (all_perms n) (fun u => fv f u * fv g t * fv h (pmul u t)))%R) as E.
  { rewrite (lsum_ext _ _ (fun p => lsum (all_perms n) (fun t => fv f (pmul p (pinv t)) * fv g t * fv h p))%R). 2:{ intros p Hp. apply HL in Hp. rewrite Vc by auto. rewrite <- lsum_scal_r. auto. }
    rewrite lsum_swap. apply lsum_ext. intros t Ht. apply HL in Ht. pose proof (is_perm_pinv n t Ht) as Ti. rewrite <- (sum_right n _ HL t (fun p => fv f (pmul p (pinv t)) * fv g t * fv h p)%R Ht). apply lsum_ext. intros u Hu. apply HL in Hu.
    rewrite (pmul_assoc n), (pmul_pinv_r n), (pmul_pid_r n) by auto. reflexivity. }
  split; rewrite E.
  - rewrite lsum_swap. apply lsum_ext. intros u Hu. apply HL in Hu. rewrite Va by auto. rewrite <- (sum_inv n _ HL (fun t => fv h (pmul u (pinv t)) * fv gi t)%R). rewrite <- lsum_scal. apply lsum_ext. intros t Ht. apply HL in Ht. rewrite Vg by (apply is_perm_pinv; auto). rewrite (pinv_involutive n) by auto. ring.
  - apply lsum_ext. intros t Ht. apply HL in Ht. rewrite Vb by auto. rewrite <- (sum_right n _ HL t (fun p => fv fi (pmul t (pinv p)) * fv h p)%R Ht). rewrite <- lsum_scal. apply lsum_ext. intros u Hu. apply HL in Hu.
    pose proof (is_perm_pinv n t Ht) as Ti. pose proof (is_perm_pinv n u Hu) as Ui. rewrite (pinv_pmul n) by auto. rewrite <- (pmul_assoc n), (pmul_pinv_r n), (pmul_pid_l n) by auto. rewrite Vf by auto. rewrite (pinv_involutive n) by auto. ring.
Qed.

(* Plancherel *)
Lemma rsum_lsum_swap {A} d (L : list A) (f : Z -> A -> R) : rsum d (fun i => lsum L (f i)) = lsum L (fun s => rsum d (fun i => f i s)).
Proof. rewrite rsum_lsum. rewrite lsum_swap. apply lsum_ext. intros s _. rewrite rsum_lsum. reflexivity. Qed.
Lemma rsum2_lsum2_swap {A} d (L : list A) (f : Z -> Z -> A -> A -> R) :
  rsum d (fun i => rsum d (fun j => lsum L (fun s => lsum L (f i j s)))) = lsum L (fun s => lsum L (fun t => rsum d (fun i => rsum d (fun j => f i j s t)))).
Proof.
  rewrite (rsum_ext _ _ (fun i => lsum L (fun s => lsum L (fun t => rsum d (fun j => f i j s t))))).
  - rewrite rsum_lsum_swap. apply lsum_ext. intros s _. rewrite rsum_lsum_swap. reflexivity.
  - intros i _. rewrite rsum_lsum_swap. apply lsum_ext. intros s _. rewrite rsum_lsum_swap. reflexivity.
Qed.
Lemma plancherel_fun n (F G : list Z -> R) : 1 <= n ->
  lsum (all_perms n) (fun p => F p * G p)%R =
  lsum (plist (Z.to_nat (n - 1))) (fun l => dimR n l / IZR (zfact n) * rsum (io_d (mkirr n l)) (fun i => rsum (io_d (mkirr n l)) (fun j => four n F l i j * four n G l i j)))%R.
Proof.
  intros Hn. pose proof (all_perms_lists n ltac:(lia)) as HL. symmetry. 
  rewrite (lsum_ext _ _ (fun l => lsum (all_perms n) (fun s => lsum (all_perms n) (fun t => F s * G t * (dimR n l / IZR (zfact n) * rsum (io_d (mkirr n l)) (fun i => rsum (io_d (mkirr n l)) (fun j => rr n l s i j * rr n l t i j))))))%R).
  - rewrite lsum_swap. apply lsum_ext. intros s Hs. pose proof (proj1 (proj2 HL s) Hs) as Ps. rewrite lsum_swap. rewrite (lsum_single _ s); auto; [|apply HL|].
    + rewrite lsum_scal, inversion_kernel by auto. destruct (list_eq_dec Z.eq_dec s s); [ring|contradiction].
    + intros t Ht Ne. apply HL in Ht. rewrite lsum_scal, inversion_kernel by auto. destruct (list_eq_dec Z.eq_dec s t); [congruence|ring].
  - intros l Hl. apply in_parts_n in Hl; auto.
    rewrite (rsum_ext _ _ (fun i => rsum (io_d (mkirr n l)) (fun j => lsum (all_perms n) (fun s => lsum (all_perms n) (fun t => F s * G t * (rr n l s j i * rr n l t j i)))))%R).
    + rewrite (rsum_swap _ _ (fun i j => _)). rewrite (rsum2_lsum2_swap _ _ (fun j i s t => F s * G t * (rr n l s j i * rr n l t j i))%R). rewrite <- lsum_scal. apply lsum_ext. intros s Hs. rewrite <- lsum_scal. apply lsum_ext. intros t Ht.
      rewrite (rsum_ext _ _ (fun i => F s * G t * rsum (io_d (mkirr n l)) (fun j => rr n l s i j * rr n l t i j))%R). 2:{ intros i _. rewrite <- rsum_scal. reflexivity. }
      rewrite rsum_scal. ring.
    + intros i Hi. apply rsum_ext. intros j Hj. unfold four. rewrite <- lsum_scal_r. apply lsum_ext. intros s Hs. apply HL in Hs. rewrite <- lsum_scal. apply lsum_ext. intros t Ht. apply HL in Ht.
      rewrite !(rr_inv n Hn) by auto. ring.
Qed.

Lemma plancherel_parts n (F G : list Z -> R) ls wf wg : 1 <= n -> (forall l, In l ls -> is_part n l) -> Forall2 (fpart n F) ls wf -> Forall2 (fpart n G) ls wg ->
  lsum ls (fun l => dimR n l / IZR (zfact n) * rsum (io_d (mkirr n l)) (fun i => rsum (io_d (mkirr n l)) (fun j => four n F l i j * four n G l i j)))%R =
  lsum (combine wf wg) (fun PQ => IZR (io_d (sp_irr (fst PQ))) / INR (fact (Z.to_nat n)) *
     rsum (io_d (sp_irr (fst PQ))) (fun i => rsum (io_d (sp_irr (fst PQ))) (fun j => m_at (sp_mat (fst PQ)) i j * m_at (sp_mat (snd PQ)) i j)))%R.
Proof.
  intros Hn Hl W. revert wg. induction W as [|l P ls wf HP W IH]; intros wg V; inversion V as [|? Q ? wg' HQ V']; subst; [reflexivity|].
  cbn [combine]. rewrite !lsum_cons. rewrite <- (IH (fun l H => Hl l (or_intror H)) wg' V'). f_equal. cbn [fst snd].
  pose proof (Hl l (or_introl eq_refl)) as Pl. destruct HP as (A1 & A2 & A3 & A4). destruct HQ as (B1 & B2 & B3 & B4). rewrite A1. f_equal.
  - unfold dimR. rewrite zfact_fact by lia. reflexivity.
  - apply rsum_ext. intros i Hi. apply rsum_ext. intros j Hj. rewrite A4, B4 by auto. reflexivity.
Qed.

Lemma plancherel act n f g : good_act act n -> sf_n f = n -> length (sf_v f) = fact (Z.to_nat n) -> sf_n g = n -> length (sf_v g) = fact (Z.to_nat n) ->
  exists F wf wg, fft_new n = Ret F /\ fft_forward act F f = Ret wf /\ fft_forward act F g = Ret wg /\
    dot (sf_v f) (sf_v g) = sum_over (combine wf wg) (fun PQ => IZR (io_d (sp_irr (fst PQ))) / INR (fact (Z.to_nat n)) *
      rsum (io_d (sp_irr (fst PQ))) (fun i => rsum (io_d (sp_irr (fst PQ))) (fun j => m_at (sp_mat (fst PQ)) i j * m_at (sp_mat (snd PQ)) i j)))%R.
Proof.
  intros (Hn & HA) A B A' B'. pose proof (fun_on_is n f A B) as IF. pose proof (fun_on_is n g A' B') as IG.
  destruct (forward_n act n Hn HA f IF) as (wf & Ef & Wf). destruct (forward_n act n Hn HA g IG) as (wg & Eg & Wg). exists (fftn n), wf, wg.
  split; [apply fft_new_ok; auto|]. split; [exact Ef|]. split; [exact Eg|]. rewrite (dot_sum n) by auto. rewrite plancherel_fun by auto. apply plancherel_parts; auto. intros l Hl. apply in_parts_n in Hl; auto.
Qed.

Lemma isometries n f g t : 1 <= n -> sf_n f = n -> length (sf_v f) = fact (Z.to_nat n) -> sf_n g = n -> length (sf_v g) = fact (Z.to_nat n) -> is_perm n t ->
  (exists a b, sf_left_translate f t = Ret a /\ sf_left_translate g t = Ret b /\ dot (sf_v a) (sf_v b) = dot (sf_v f) (sf_v g)) /\
  (exists a b, sf_right_translate f t = Ret a /\ sf_right_translate g t = Ret b /\ dot (sf_v a) (sf_v b) = dot (sf_v f) (sf_v g)) /\
  (exists a b, sf_inv f = Ret a /\ sf_inv g = Ret b /\ dot (sf_v a) (sf_v b) = dot (sf_v f) (sf_v g)).
Proof.
  intros Hn A B A' B' T. pose proof (fun_on_is n f A B) as IF. pose proof (fun_on_is n g A' B') as IG. pose proof (all_perms_lists n ltac:(lia)) as HL. pose proof (is_perm_pinv n t T) as Ti.
  split; [|split].
  - destruct (left_ok n f t IF Hn T) as (a & E & Ha & V). destruct (left_ok n g t IG Hn T) as (b & E' & Hb & V'). exists a, b. split; [exact E|]. split; [exact E'|]. rewrite !(dot_sum n) by auto.
    rewrite <- (sum_left n _ HL (pinv t) (fun p => fv f p * fv g p)%R Ti). apply lsum_ext. intros p Hp. apply HL in Hp. rewrite V, V' by auto. reflexivity.
  - destruct (right_ok n f t IF Hn T) as (a & E & Ha & V). destruct (right_ok n g t IG Hn T) as (b & E' & Hb & V'). exists a, b. split; [exact E|]. split; [exact E'|]. rewrite !(dot_sum n) by auto.
    rewrite <- (sum_right n _ HL (pinv t) (fun p => fv f p * fv g p)%R Ti). apply lsum_ext. intros p Hp. apply HL in Hp. rewrite V, V' by auto. reflexivity.
  - destruct (inv_ok n f IF Hn) as (a & E & Ha & V). destruct (inv_ok n g IG Hn) as (b & E' & Hb & V'). exists a, b. split; [exact E|]. split; [exact E'|]. rewrite !(dot_sum n) by auto.
    rewrite <- (sum_inv n _ HL (fun p => fv f p * fv g p)%R). apply lsum_ext. intros p Hp. apply HL in Hp. rewrite V, V' by auto. reflexivity.
Qed.

Lemma python_gradient_wrong : exists f g h c a b, sf_n f = 3 /\ length (sf_v f) = fact 3 /\ sf_n g = 3 /\ length (sf_v g) = fact 3 /\ sf_n h = 3 /\ length (sf_v h) = fact 3 /\
  sf_convolve f g = Ret c /\ sf_convolve h g = Ret a /\ sf_convolve h f = Ret b /\
  dot (sf_v c) (sf_v h) <> dot (sf_v f) (sf_v a) /\ dot (sf_v c) (sf_v h) <> dot (sf_v g) (sf_v b).
Proof.
  (* h = 1 at the identity, f = 1 at a 3-cycle c: g(c^-1) against g(c) *)
  exists (mkFun 3 [0;0;0;1;0;0]%R), (mkFun 3 [0;1;2;3;4;5]%R), (mkFun 3 [1;0;0;0;0;0]%R). eexists _, _, _. do 6 (split; [reflexivity|]).
  split; [lazy -[Rplus Rmult IZR]; reflexivity|]. split; [lazy -[Rplus Rmult IZR]; reflexivity|]. split; [lazy -[Rplus Rmult IZR]; reflexivity|].
  unfold dot. cbn. split; lra.
Qed.
