(* Rounded arithmetic: the error of the matrices. *)
From Coq Require Import ZArith List Bool Lia Reals Lra.
From Verif Require Import Model_Base Model_Perm Model_Part Model_Comb Model_Tab Model_Irrep Model_Float.
From Verif Require Import Spec_Perm Spec_Part Spec_Tab Spec_Rep Spec_Float.
From Verif Require Import Proof_Base Proof_Perm Proof_Part Proof_Tab Proof_TabProps Proof_Yor Proof_Sum Proof_Irrep Proof_Rep Proof_Mat Proof_Float1 Proof_Float2.
Import ListNotations.
Open Scope R_scope.

Lemma lsum_nonneg {A} (L : list A) f : (forall x, In x L -> 0 <= f x) -> 0 <= lsum L f.
Proof. induction L as [|x L IH]; intros H; [rewrite lsum_nil; lra|]. rewrite lsum_cons. pose proof (H x ltac:(left; auto)). pose proof (IH ltac:(intros; apply H; right; auto)). lra. Qed.
Lemma lsum_le {A} (L : list A) f g : (forall x, In x L -> f x <= g x) -> lsum L f <= lsum L g.
Proof. induction L as [|x L IH]; intros H; [rewrite !lsum_nil; lra|]. rewrite !lsum_cons. pose proof (H x ltac:(left; auto)). pose proof (IH ltac:(intros; apply H; right; auto)). lra. Qed.

Lemma cauchy {A} (L : list A) f g : (lsum L (fun x => f x * g x))² <= lsum L (fun x => f x * f x) * lsum L (fun x => g x * g x).
Proof.
  induction L as [|x L IH]; [rewrite !lsum_nil; unfold Rsqr; lra|]. rewrite !lsum_cons.
  assert (0 <= lsum L (fun x => f x * f x)) as P by (apply lsum_nonneg; intros; nra). assert (0 <= lsum L (fun x => g x * g x)) as Q by (apply lsum_nonneg; intros; nra).
  set (X := lsum L (fun x => f x * f x)) in *. set (Y := lsum L (fun x => g x * g x)) in *. set (Z := lsum L (fun x => f x * g x)) in *. set (a := f x). set (b := g x).
  unfold Rsqr in *.
  assert (2 * Z * (a * b) <= X * (b * b) + Y * (a * a)) as K; [|nra].
  assert (Rabs (Z * (a * b)) <= sqrt (X * (b * b)) * sqrt (Y * (a * a))) as K.
  { rewrite <- sqrt_mult by nra. rewrite <- sqrt_Rsqr_abs. apply sqrt_le_1_alt. unfold Rsqr. assert (0 <= (a * b) * (a * b)) by nra. nra. }
  pose proof (Rle_abs (Z * (a * b))). pose proof (sqrt_sqrt (X * (b * b)) ltac:(nra)). pose proof (sqrt_sqrt (Y * (a * a)) ltac:(nra)).
  pose proof (Rle_0_sqr (sqrt (X * (b * b)) - sqrt (Y * (a * a)))) as Sq. unfold Rsqr in Sq. lra.
Qed.

Definition nrm (d : Z) (f : Z -> R) : R := sqrt (rsum d (fun i => f i * f i)).

Lemma rsq_nonneg d f : 0 <= rsum d (fun i => f i * f i).
Proof. rewrite rsum_lsum. apply lsum_nonneg. intros; nra. Qed.
Lemma nrm_nonneg d f : 0 <= nrm d f. Proof. apply sqrt_pos. Qed.
Lemma nrm_sq d f : nrm d f * nrm d f = rsum d (fun i => f i * f i).
Proof. apply sqrt_sqrt. apply rsq_nonneg. Qed.

Lemma nrm_ext d f g : (forall i, (0 <= i < d)%Z -> f i = g i) -> nrm d f = nrm d g.
Proof. intros H. unfold nrm. f_equal. apply rsum_ext. intros i Hi. rewrite H by auto. reflexivity. Qed.

Lemma nrm_plus d f g : nrm d (fun i => f i + g i) <= nrm d f + nrm d g.
Proof.
  pose proof (nrm_nonneg d f) as A. pose proof (nrm_nonneg d g) as B. unfold nrm at 1. rewrite <- (sqrt_Rsqr (nrm d f + nrm d g)) by lra. apply sqrt_le_1_alt.
  rewrite Rsqr_plus. unfold Rsqr. rewrite !nrm_sq, !rsum_lsum.
  rewrite (lsum_ext _ _ (fun i => f i * f i + (g i * g i + (f i * g i + f i * g i)))) by (intros; ring). rewrite !lsum_plus.
  assert (lsum (zrange 0 d) (fun i => f i * g i) <= nrm d f * nrm d g); [|lra].
  pose proof (cauchy (zrange 0 d) f g) as C. rewrite <- !rsum_lsum, <- !nrm_sq in C. rewrite <- rsum_lsum.
  apply Rsqr_incr_0_var; [|nra]. unfold Rsqr in *. nra.
Qed.

Lemma nrm_mono d f g : (forall i, (0 <= i < d)%Z -> Rabs (f i) <= g i) -> nrm d f <= nrm d g.
Proof.
  intros H. apply sqrt_le_1_alt. rewrite !rsum_lsum. apply lsum_le. intros i Hi. apply in_zrange in Hi. specialize (H i Hi).
  pose proof (Rabs_pos (f i)). assert (f i * f i = Rabs (f i) * Rabs (f i)) as -> by (rewrite <- Rabs_mult; symmetry; apply Rabs_pos_eq; nra). nra.
Qed.

Lemma nrm_entry d f i : (0 <= i < d)%Z -> Rabs (f i) <= nrm d f.
Proof.
  intros Hi. unfold nrm. rewrite <- sqrt_Rsqr_abs. apply sqrt_le_1_alt. rewrite rsum_lsum. unfold Rsqr.
  apply Rle_trans with (lsum (zrange 0 d) (fun k => if Z.eq_dec k i then f i * f i else 0)).
  - rewrite (lsum_single (zrange 0 d) i).
    + destruct (Z.eq_dec i i); [lra|congruence].
    + apply NoDup_zrange.
    + apply in_zrange; auto.
    + intros k _ Nk. destruct (Z.eq_dec k i); [congruence|reflexivity].
  - apply lsum_le. intros k _. destruct (Z.eq_dec k i) as [->|]; nra.
Qed.

Lemma nrm_scal d c f : 0 <= c -> nrm d (fun i => c * f i) = c * nrm d f.
Proof.
  intros Hc. unfold nrm. rewrite (rsum_ext _ _ (fun i => (c * c) * (f i * f i))) by (intros; ring). rewrite rsum_lsum, lsum_scal, <- rsum_lsum.
  rewrite sqrt_mult by (try apply rsq_nonneg; nra). rewrite sqrt_square by auto. reflexivity.
Qed.

Lemma nrm_const d c : (0 <= d)%Z -> 0 <= c -> nrm d (fun _ => c) <= c * IZR d.
Proof.
  intros Hd Hc. unfold nrm. rewrite rsum_lsum, lsum_const, zlen_zrange. replace (Z.max 0 (d - 0)) with d by lia.
  destruct (Z.eq_dec d 0) as [->|]; [rewrite Rmult_0_l, sqrt_0; lra|]. assert (1 <= IZR d) by (apply IZR_le; lia).
  rewrite <- (sqrt_Rsqr (c * IZR d)) by nra. apply sqrt_le_1_alt. unfold Rsqr. assert (0 <= c * c) by nra. nra.
Qed.

Lemma nrm_ptn n l o tau f : good n l o -> (1 <= tau < n)%Z -> nrm (io_d o) (fun i => f (ptn o tau i)) = nrm (io_d o) f.
Proof.
  intros G Ht. unfold nrm. f_equal. rewrite !rsum_lsum. apply (lsum_reindex (zrange 0 (io_d o)) (ptn o tau) (fun i => f i * f i)).
  - apply NoDup_zrange.
  - intros i Hi. apply in_zrange in Hi. apply in_zrange. eapply ptn_range; eauto.
  - intros i j Hi Hj E. apply in_zrange in Hi, Hj. rewrite <- (ptn_ptn n l o tau G Ht i Hi), <- (ptn_ptn n l o tau G Ht j Hj). rewrite E. reflexivity.
Qed.

Lemma nrm_abs d f : nrm d (fun i => Rabs (f i)) = nrm d f.
Proof. unfold nrm. f_equal. apply rsum_ext. intros i _. rewrite <- Rabs_mult. apply Rabs_pos_eq. nra. Qed.

Lemma nrm_col n l o tau f : good n l o -> (1 <= tau < n)%Z -> nrm (io_d o) (col' o tau f) = nrm (io_d o) f.
Proof. intros G Ht. unfold nrm. f_equal. apply (TT_isom n l o G tau f f Ht). Qed.

Lemma col_sub o tau f g i : col' o tau (fun k => f k - g k) i = col' o tau f i - col' o tau g i.
Proof. unfold col', TT. ring. Qed.

Section Words.
  Variables (F : arith) (fval : fl F -> option R) (dval : db F -> option R) (u v e B : R).
  Hypothesis Hr : rounded F fval dval u v e B.
  Hypothesis Hu : 0 <= u <= / 1000.
  Hypothesis Hv : 0 <= v <= / 1000.
  Hypothesis He : 0 <= e <= v / 1000.
  Hypothesis HB : 1000 <= B.
  Variables (n : Z) (l : list Z) (o : irr).
  Hypothesis G : good n l o.
  Hypothesis Hn : (n <= 2 ^ 25)%Z.

  (* the error one step adds to a column of norm one *)
  Definition gamma : R := 2 * alpha u v + beta e * IZR (io_d o).

  Definition fv (x : fl F) : R := match fval x with Some r => r | None => 0 end.
  Definition tracks (E : R) (A : fmat F) (M : mat) : Prop :=
    fwf F (io_d o) (io_d o) A /\ m_n0 M = io_d o /\ m_n1 M = io_d o /\
    forall j, (0 <= j < io_d o)%Z -> (forall i, (0 <= i < io_d o)%Z -> fval (fat F A i j) = Some (fv (fat F A i j))) /\
      nrm (io_d o) (fun i => fv (fat F A i j) - m_at M i j) <= E /\ nrm (io_d o) (fun i => m_at M i j) = 1.

  Lemma dpos0 : (0 <= io_d o)%Z. Proof. apply zlen_nonneg. Qed.

  Lemma gamma_nonneg : 0 <= gamma.
  Proof. unfold gamma, alpha, beta. pose proof dpos0 as D. apply IZR_le in D. assert (0 <= 6 * e * IZR (io_d o)) by (apply Rmult_le_pos; lra). lra. Qed.

  Lemma tracks_ident : tracks 0 (fident F (io_d o)) (mident (io_d o)).
  Proof.
    split; [apply fident_wf; apply dpos0|]. split; [auto|]. split; [auto|]. intros j Hj.
    assert (forall i, (0 <= i < io_d o)%Z -> fval (fat F (fident F (io_d o)) i j) = Some (if (i =? j)%Z then 1 else 0)) as V.
    { intros i Hi. rewrite fident_at by auto. destruct (i =? j)%Z; [apply (r_fz_exact _ _ _ _ _ _ _ Hr 1)|apply (r_fz_exact _ _ _ _ _ _ _ Hr 0)]; lia. }
    split; [|split].
    - intros i Hi. unfold fv. rewrite V by auto. reflexivity.
    - rewrite (nrm_ext _ _ (fun _ => 0)).
      + unfold nrm. rewrite rsum_lsum, lsum_0; [rewrite sqrt_0; lra|]. intros; ring.
      + intros i Hi. unfold fv. rewrite V by auto. cbn [mident m_at]. ring.
    - rewrite (nrm_ext _ _ (fun i => delta i j)).
      + unfold nrm. rewrite rsum_delta by auto. unfold delta. destruct (Z.eq_dec j j); [apply sqrt_1|congruence].
      + intros i Hi. cbn [mident m_at]. unfold delta. destruct (Z.eqb_spec i j), (Z.eq_dec i j); congruence.
  Qed.

  Lemma tracks_step b tau E A M : ftable F n o b -> (1 <= tau < n)%Z -> 0 <= E <= 1 -> tracks E A M ->
    exists A' M', f_apply F o b tau A = Ret A' /\ irr_apply o tau M = Ret M' /\ tracks (E + 2 * alpha u v * E + gamma) A' M'.
  Proof.
    intros T Ht HE (W & N0 & N1 & H). destruct (f_apply_ok F n l o tau b A (io_d o) G Ht T dpos0 W) as (A' & EA & WA & VA).
    destruct (apply_block_ok n l o tau G Ht 0 (m_n1 M) M N0 ltac:(lia) ltac:(lia)) as (M' & EM & N0' & N1' & VM).
    exists A', M'. split; [exact EA|]. split; [exact EM|]. split; [auto|]. split; [congruence|]. split; [congruence|]. intros j Hj.
    destruct (H j Hj) as (Hf & HN & H1). set (f := fun k => fat F A k j) in *. set (g := fun k => fv (fat F A k j)). set (m := fun k => m_at M k j) in *.
    assert (nrm (io_d o) g <= 1 + E) as NG.
    { rewrite (nrm_ext _ g (fun i => (g i - m i) + m i)) by (intros; ring). eapply Rle_trans; [apply nrm_plus|]. unfold g. unfold m in *. lra. }
    assert (forall i, (0 <= i < io_d o)%Z -> fval (f i) = Some (g i) /\ Rabs (g i) <= 4) as HG.
    { intros i Hi. split; [apply Hf; auto|]. pose proof (nrm_entry (io_d o) g i Hi). lra. }
    pose proof (fcol_ok F fval dval u v e B Hr Hu Hv He HB n l o tau f g G Ht Hn HG) as K.
    assert (forall i, (0 <= i < io_d o)%Z -> fval (fat F A' i j) = Some (fv (fat F A' i j)) /\ Rabs (fv (fat F A' i j) - col' o tau g i) <= alpha u v * (Rabs (g i) + Rabs (g (ptn o tau i))) + beta e) as K2.
    { intros i Hi. destruct (K i Hi) as (r & Er & D). rewrite VA by auto. fold f. unfold fv. rewrite Er. auto. }
    assert (forall i, (0 <= i < io_d o)%Z -> m_at M' i j = col' o tau m i) as VM2.
    { intros i Hi. rewrite VM by auto. unfold incols. replace ((0 <=? j) && (j <? m_n1 M))%Z with true by lia. reflexivity. }
    split; [intros i Hi; apply K2; auto|]. split.
    - rewrite (nrm_ext _ _ (fun i => (fv (fat F A' i j) - col' o tau g i) + col' o tau (fun k => g k - m k) i)).
      + eapply Rle_trans; [apply nrm_plus|]. rewrite (nrm_col n l o tau _ G Ht). fold g in HN. change (nrm (io_d o) (fun k => g k - m k) <= E) in HN.
        assert (nrm (io_d o) (fun i => fv (fat F A' i j) - col' o tau g i) <= alpha u v * (2 * (1 + E)) + beta e * IZR (io_d o)) as Q.
        { eapply Rle_trans; [apply (nrm_mono _ _ (fun i => alpha u v * (Rabs (g i) + Rabs (g (ptn o tau i))) + beta e)); intros i Hi; apply K2; auto|].
          assert (0 <= alpha u v) as Ha by (unfold alpha; lra). assert (0 <= beta e) as Hbt by (unfold beta; lra).
          eapply Rle_trans; [apply nrm_plus|]. apply Rplus_le_compat; [|apply nrm_const; [apply dpos0|auto]]. rewrite nrm_scal by auto. apply Rmult_le_compat_l; auto.
          eapply Rle_trans; [apply nrm_plus|]. rewrite (nrm_ptn n l o tau (fun i => Rabs (g i)) G Ht), nrm_abs. lra. }
        unfold gamma. lra.
      + intros i Hi. rewrite col_sub, VM2 by auto. ring.
    - rewrite (nrm_ext _ _ (col' o tau m)) by (intros; apply VM2; auto). rewrite (nrm_col n l o tau _ G Ht). exact H1.
  Qed.

  Lemma tracks_weaken E E' A M : tracks E A M -> E <= E' -> tracks E' A M.
  Proof. intros (W & N0 & N1 & H) L. split; [auto|]. split; [auto|]. split; [auto|]. intros j Hj. destruct (H j Hj) as (X & Y & Z). split; [auto|]. split; [lra|auto]. Qed.

  (* k steps: the error is at most 2 k gamma as long as that is at most one *)
  Lemma tracks_word b w : ftable F n o b -> (forall j, In j w -> (1 <= j < n)%Z) -> forall c A M, 2 * (c + INR (length w)) * gamma <= 1 -> 0 <= c -> tracks (2 * c * gamma) A M ->
    exists A' M', foldM (f_apply F o b) w A = Ret A' /\ foldM (irr_apply o) w M = Ret M' /\ tracks (2 * (c + INR (length w)) * gamma) A' M'.
  Proof.
    intros T. pose proof gamma_nonneg as Hg. induction w as [|tau w IH]; intros Hw c A M Hk Hc K.
    - exists A, M. split; [reflexivity|]. split; [reflexivity|]. cbn [length INR]. rewrite Rplus_0_r. exact K.
    - cbn [length] in Hk. rewrite S_INR in Hk. pose proof (pos_INR (length w)) as Hw0.
      assert (0 <= 2 * c * gamma) as C0 by (apply Rmult_le_pos; [lra|auto]).
      assert (2 * c * gamma <= 1) as C1. { eapply Rle_trans; [|apply Hk]. apply Rmult_le_compat_r; [auto|lra]. }
      destruct (tracks_step b tau (2 * c * gamma) A M T (Hw tau ltac:(left; auto)) (conj C0 C1) K) as (A1 & M1 & E1 & E2 & K1).
      destruct (IH ltac:(intros; apply Hw; right; auto) (c + 1) A1 M1) as (A' & M' & E1' & E2' & K').
      + replace (c + 1 + INR (length w)) with (c + (INR (length w) + 1)) by ring. exact Hk.
      + lra.
      + apply (tracks_weaken _ _ _ _ K1). assert (2 * alpha u v <= gamma) as Ag.
        { unfold gamma, beta. pose proof dpos0 as D. apply IZR_le in D. assert (0 <= 6 * e * IZR (io_d o)) by (apply Rmult_le_pos; lra). lra. }
        assert (2 * alpha u v * (2 * c * gamma) <= gamma * 1). { apply Rmult_le_compat; auto. unfold alpha; lra. } lra.
      + exists A', M'. cbn [foldM]. rewrite E1, E2. cbn [bind]. split; [exact E1'|]. split; [exact E2'|]. cbn [length]. rewrite S_INR. replace (c + (INR (length w) + 1)) with (c + 1 + INR (length w)) by ring. exact K'.
  Qed.

  Lemma tracks_entry E A M i j : tracks E A M -> (0 <= i < io_d o)%Z -> (0 <= j < io_d o)%Z ->
    exists x, fval (fat F A i j) = Some x /\ Rabs (x - m_at M i j) <= E /\ Rabs (m_at M i j) <= 1.
  Proof.
    intros (W & N0 & N1 & H) Hi Hj. destruct (H j Hj) as (X & Y & Z). exists (fv (fat F A i j)). split; [auto|]. split.
    - eapply Rle_trans; [|exact Y]. apply (nrm_entry (io_d o) (fun i => fv (fat F A i j) - m_at M i j) i Hi).
    - rewrite <- Z. apply (nrm_entry (io_d o) (fun i => m_at M i j) i Hi).
  Qed.
End Words.
