(* The tensor product of two irreps. *)
From Coq Require Import ZArith List Bool Lia ZifyBool ZifyNat Reals Lra.
From Verif Require Import Model_Base Model_Perm Model_Part Model_Comb Model_Tab Model_Irrep Model_Prod.
From Verif Require Import Spec_Perm Spec_Part Spec_Tab Spec_Rep Spec_Prod.
From Verif Require Import Proof_Base Proof_Perm Proof_PermProps Proof_Part Proof_Tab Proof_TabProps Proof_Cycles Proof_Cox Proof_Yor Proof_Sum Proof_Irrep Proof_Rep Proof_Mat Proof_IrrepProps Proof_Block Proof_JM Proof_View Proof_ViewProps Proof_FFTmath Proof_Conn Proof_Char.
Import ListNotations.
Open Scope Z_scope.

Lemma dm_split d1 i : 0 < d1 -> i = (i / d1) * d1 + i mod d1.
Proof. intros H. pose proof (Z.div_mod i d1 ltac:(lia)). lia. Qed.
Lemma dm_range d0 d1 i : 0 <= i < d0 * d1 -> 0 < d1 -> 0 <= i / d1 < d0 /\ 0 <= i mod d1 < d1.
Proof. intros H H1. split; [|apply Z.mod_pos_bound; lia]. split; [apply Z.div_pos; lia|]. apply Z.div_lt_upper_bound; lia. Qed.
Lemma dm_div d1 a b : 0 <= b < d1 -> (a * d1 + b) / d1 = a.
Proof. intros H. rewrite Z.div_add_l by lia. rewrite Z.div_small by lia. lia. Qed.
Lemma dm_mod d1 a b : 0 <= b < d1 -> (a * d1 + b) mod d1 = b.
Proof. intros H. rewrite Z.add_comm, Z.mod_add by lia. apply Z.mod_small. lia. Qed.

Lemma delta_dm d1 i k : 0 < d1 -> delta i k = kronecker d1 delta delta i k.
Proof.
  intros H. unfold kronecker, delta. destruct (Z.eq_dec i k) as [->|N].
  - destruct (Z.eq_dec (k / d1) (k / d1)), (Z.eq_dec (k mod d1) (k mod d1)); try contradiction. ring.
  - destruct (Z.eq_dec (i / d1) (k / d1)); [|ring]. destruct (Z.eq_dec (i mod d1) (k mod d1)); [|ring]. exfalso. apply N.
    rewrite (dm_split d1 i), (dm_split d1 k) by auto. congruence.
Qed.

Lemma kronecker_mul d0 d1 A B A' B' i j : 0 <= d0 -> 0 < d1 ->
  mprod (d0 * d1) (kronecker d1 A B) (kronecker d1 A' B') i j = kronecker d1 (mprod d0 A A') (mprod d1 B B') i j.
Proof.
  intros H0 H1. unfold mprod, kronecker. rewrite rsum_prod by lia.
  rewrite (rsum_ext _ _ (fun a => (A (i / d1)%Z a * A' a (j / d1)%Z * rsum d1 (fun k => B (i mod d1)%Z k * B' k (j mod d1)%Z))%R)).
  - rewrite rsum_scal_r. reflexivity.
  - intros a Ha. rewrite <- rsum_scal. apply rsum_ext. intros b Hb. rewrite dm_div, dm_mod by lia. ring.
Qed.

Section Prod.
  Variables (n : Z) (l0 l1 : list Z) (o0 o1 : irr).
  Hypotheses (G0 : good n l0 o0) (G1 : good n l1 o1).

  Definition kr (p : list Z) : Z -> Z -> R := kronecker (io_d o1) (rho n o0 p) (rho n o1 p).

  Definition moved_pr (p : list Z) (T : ten) (r : outcome ten) : Prop := exists T', r = Ret T' /\ tdims T T' /\
    forall a i b, 0 <= a < t_n0 T -> 0 <= i < pr_d o0 o1 -> 0 <= b < t_n2 T ->
      t_at T' a i b = rsum (pr_d o0 o1) (fun k => (kr p i k * t_at T a k b)%R).

  Lemma both_ok f0 f1 p T : 0 < io_d o0 -> 0 < io_d o1 -> t_n1 T = pr_d o0 o1 -> 0 <= t_n0 T -> 0 <= t_n2 T ->
    (forall S, t_n1 S = io_d o0 -> 0 <= t_n0 S -> 0 <= t_n2 S -> moved_mid n o0 p S (f0 S)) ->
    (forall S, t_n1 S = io_d o1 -> 0 <= t_n0 S -> 0 <= t_n2 S -> moved_mid n o1 p S (f1 S)) ->
    moved_pr p T (pr_both o0 o1 f0 f1 T).
  Proof.
    intros D0 D1 N1 N0 N2 F0 F1. unfold pr_both, outer_get. rewrite N1. unfold pr_d. rewrite Z.eqb_refl. cbn [bind].
    match goal with |- context [f0 ?s] => set (S0 := s) end.
    destruct (F0 S0) as (S0' & E0 & (A0 & A1 & A2) & V0); [reflexivity|cbn; lia|cbn; nia|]. rewrite E0. cbn [bind].
    unfold inner_get. cbn [outer_put t_n1]. rewrite N1. unfold pr_d. rewrite Z.eqb_refl. cbn [bind].
    match goal with |- context [f1 ?s] => set (S1 := s) end.
    destruct (F1 S1) as (S1' & E1 & (B0 & B1 & B2) & V1); [reflexivity|cbn; nia|cbn; lia|]. rewrite E1. cbn [bind].
    eexists. split; [reflexivity|]. split; [repeat split; cbn; auto|]. intros a i b Ha Hi Hb. unfold pr_d in Hi.
    destruct (dm_range _ _ _ Hi D1) as (R0 & R1). cbn [inner_put t_at]. rewrite V1; [|cbn; nia|auto|auto].
    unfold pr_d, kr, kronecker. rewrite rsum_prod by lia. rewrite rsum_swap. apply rsum_ext. intros k Hk.
    cbn [S1 outer_put t_at t_n2]. rewrite dm_div, dm_mod by lia. rewrite dm_div, dm_mod by lia. rewrite V0; [|cbn; lia|auto|cbn; nia].
    rewrite <- rsum_scal. apply rsum_ext. intros j Hj. cbn [S0 t_at t_n2]. rewrite dm_div, dm_mod by lia. rewrite (dm_div (io_d o1)), (dm_mod (io_d o1)) by lia. ring.
  Qed.

  Lemma good_dpos l o : good n l o -> 0 < io_d o.
  Proof.
    intros G. assert (1 <= n) as Hn by apply G.
    destruct (standard_exists (Z.to_nat n) l) as (t & St); [replace (Z.of_nat (Z.to_nat n)) with n by lia; apply G|]. pose proof (pos_standard n l o t G St). lia.
  Qed.

  Lemma mid_tau_ok l o tau T : good n l o -> 1 <= tau < n -> t_n1 T = io_d o -> 0 <= t_n0 T -> 0 <= t_n2 T -> moved_mid n o (ptransp n tau (tau + 1)) T (irr_apply_mid o tau T).
  Proof.
    intros G Ht N1 N0 N2. destruct (mid_cycle_ok n l o G tau (tau + 1) T) as (A' & E & K); auto; try lia.
    assert (pcyc n tau (tau + 1) = ptransp n tau (tau + 1)) as Ep.
    { apply (perm_ext n); [apply is_perm_len; apply is_perm_pcyc; lia|apply is_perm_len; apply is_perm_ptransp; lia|].
      intros i Hi. rewrite img_pcyc, img_ptransp by lia. unfold cfun, tfun. zc. }
    rewrite Ep in K. exists A'. split; auto. rewrite <- E. unfold irr_mid_cycle, act_cycle, zford. cbn [cy_a cy_b]. destruct (Z.ltb_spec tau (tau + 1)); [|lia].
    replace (tau + 1 - 1 + 1) with (tau + 1) by lia. replace (zrange tau (tau + 1)) with [tau] by (rewrite zrange_snoc, zrange_nil by lia; reflexivity). cbn [rev app foldM]. destruct (irr_apply_mid o tau T); reflexivity.
  Qed.

  Lemma pr_apply_ok tau T : 1 <= tau < n -> t_n1 T = pr_d o0 o1 -> 0 <= t_n0 T -> 0 <= t_n2 T -> moved_pr (ptransp n tau (tau + 1)) T (pr_apply o0 o1 tau T).
  Proof. intros. unfold pr_apply. apply both_ok; auto; try (eapply good_dpos; eauto); intros; eapply mid_tau_ok; eauto. Qed.

  Lemma pr_cycle_ok a b T : 1 <= a <= n -> 1 <= b <= n -> t_n1 T = pr_d o0 o1 -> 0 <= t_n0 T -> 0 <= t_n2 T -> moved_pr (pcyc n a b) T (pr_cycle o0 o1 (mkCyc a b) T).
  Proof. intros. unfold pr_cycle. apply both_ok; auto; try (eapply good_dpos; eauto); intros; eapply mid_cycle_ok; eauto. Qed.

  (* ---- the product is a representation ---- *)
  Lemma pr_d_pos : 0 < pr_d o0 o1.
  Proof. unfold pr_d. pose proof (good_dpos _ _ G0). pose proof (good_dpos _ _ G1). nia. Qed.

  Lemma kr_mul p q i j : is_perm n p -> is_perm n q -> 0 <= i < pr_d o0 o1 -> kr (pmul p q) i j = mprod (pr_d o0 o1) (kr p) (kr q) i j.
  Proof.
    intros P Q Hi. pose proof (good_dpos _ _ G0). pose proof (good_dpos _ _ G1). destruct (dm_range _ _ _ Hi) as (R0 & R1); auto.
    unfold kr, pr_d. rewrite kronecker_mul by lia. unfold kronecker. rewrite (rho_mul n l0 o0 G0), (rho_mul n l1 o1 G1) by auto. reflexivity.
  Qed.

  Lemma kr_id i j : 0 <= i < pr_d o0 o1 -> kr (pid n) i j = delta i j.
  Proof.
    intros Hi. pose proof (good_dpos _ _ G1). destruct (dm_range _ _ _ Hi) as (R0 & R1); auto.
    rewrite (delta_dm (io_d o1)) by auto. unfold kr, kronecker. rewrite (rho_id n l0 o0 G0), (rho_id n l1 o1 G1) by auto. reflexivity.
  Qed.

  Lemma kr_inv p i j : is_perm n p -> 0 <= i < pr_d o0 o1 -> 0 <= j < pr_d o0 o1 -> kr (pinv p) i j = kr p j i.
  Proof.
    intros P Hi Hj. pose proof (good_dpos _ _ G1). destruct (dm_range _ _ _ Hi) as (R0 & R1); auto. destruct (dm_range _ _ _ Hj) as (Q0 & Q1); auto.
    unfold kr, kronecker. rewrite (rho_inv n l0 o0 G0), (rho_inv n l1 o1 G1) by auto. reflexivity.
  Qed.

  Lemma kr_trace p : trace (pr_d o0 o1) (kr p) = (trace (io_d o0) (rho n o0 p) * trace (io_d o1) (rho n o1 p))%R.
  Proof.
    pose proof (good_dpos _ _ G0). pose proof (good_dpos _ _ G1). unfold trace, pr_d. rewrite rsum_prod by lia. rewrite <- rsum_scal_r. apply rsum_ext. intros a Ha.
    rewrite <- rsum_scal. apply rsum_ext. intros b Hb. unfold kr, kronecker. rewrite dm_div, dm_mod by lia. reflexivity.
  Qed.

  Lemma step_cycle i k : 1 <= i -> i < k -> k <= n -> pmul (ptransp n i (i + 1)) (pcyc n (i + 1) k) = pcyc n i k.
  Proof.
    intros Hi Hk Hn. pose proof (is_perm_ptransp n i (i + 1) ltac:(lia) ltac:(lia)) as P. pose proof (is_perm_pcyc n (i + 1) k ltac:(lia) ltac:(lia)) as Q.
    apply (perm_ext n); [apply is_perm_len; apply (is_perm_pmul n); auto|apply is_perm_len; apply is_perm_pcyc; lia|].
    intros j Hj. rewrite img_pmul by (rewrite (is_perm_len _ _ Q); lia). pose proof (is_perm_img _ _ j Q Hj) as B. rewrite img_ptransp by lia. rewrite !img_pcyc by lia. unfold cfun, tfun. zc.
  Qed.

  Lemma cycle_back i k : 1 <= i -> i < k -> k <= n -> pmul (pcyc n k (i + 1)) (pcyc n i k) = ptransp n i k.
  Proof.
    intros Hi Hk Hn. pose proof (is_perm_pcyc n k (i + 1) ltac:(lia) ltac:(lia)) as P. pose proof (is_perm_pcyc n i k ltac:(lia) ltac:(lia)) as Q.
    apply (perm_ext n); [apply is_perm_len; apply (is_perm_pmul n); auto|apply is_perm_len; apply is_perm_ptransp; lia|].
    intros j Hj. rewrite img_pmul by (rewrite (is_perm_len _ _ Q); lia). pose proof (is_perm_img _ _ j Q Hj) as B. rewrite img_ptransp by lia. rewrite img_pcyc by lia. rewrite img_pcyc by lia. unfold cfun, tfun. zc.
  Qed.

  Lemma pr_jm_ok k : 1 <= k -> k <= n -> exists M, pr_jm o0 o1 k = Ret M /\ m_n0 M = pr_d o0 o1 /\ m_n1 M = pr_d o0 o1 /\
    forall i j, 0 <= i < pr_d o0 o1 -> 0 <= j < pr_d o0 o1 -> m_at M i j = lsum (zrange 1 k) (fun a => kr (ptransp n a k) i j).
  Proof.
    intros Hk Hkn. unfold pr_jm. pose proof pr_d_pos as Dp. set (d := pr_d o0 o1) in *.
    match goal with |- context [zford (k - 1) 1 ?b ?s] => set (body := b); set (st0 := s) end.
    destruct (zford_inv (fun i st => let '(M, A) := st in m_n0 M = d /\ m_n1 M = d /\ m_n0 A = d /\ m_n1 A = d /\
        (forall a b, 0 <= a < d -> 0 <= b < d -> m_at A a b = kr (pcyc n (i + 1) k) a b) /\
        forall a b, 0 <= a < d -> 0 <= b < d -> m_at M a b = lsum (zrange (i + 1) k) (fun x => kr (ptransp n x k) a b)) 1 (k - 1) body st0) as ((M & A) & E & M0 & M1 & _ & _ & _ & V).
    - lia.
    - unfold st0. split; auto. split; auto. split; auto. split; auto. split.
      + intros a b Ha Hb. replace (k - 1 + 1) with k by lia. rewrite pcyc_self by lia. rewrite kr_id by auto. cbn. unfold delta. destruct (Z.eqb_spec a b), (Z.eq_dec a b); auto; contradiction.
      + intros a b Ha Hb. rewrite zrange_nil by lia. reflexivity.
    - intros i (M & A) Hi (M0 & M1 & A0 & A1 & VA & V). unfold body.
      destruct (pr_apply_ok i (rows_get A)) as (T & ET & (T0 & T1 & T2) & VT); [lia|exact A0|cbn; lia|cbn; lia|]. rewrite ET. cbn [bind]. cbn [rows_get t_n0 t_n1 t_n2] in T0, T1, T2.
      destruct (pr_cycle_ok k (i + 1) (rows_get (rows_put T))) as (S & ES & (S0 & S1 & S2) & VS); [lia|lia|cbn; rewrite T1; exact A0|cbn; lia|cbn; lia|]. rewrite ES. cbn [bind]. cbn [rows_get rows_put m_n0 m_n1 t_n0 t_n1 t_n2] in S0, S1, S2.
      assert (forall a b, 0 <= a < d -> 0 <= b < d -> t_at T 0 a b = kr (pcyc n i k) a b) as W.
      { intros a b Ha Hb. rewrite VT by (cbn; first [lia | auto]). rewrite <- (step_cycle i k) by lia. rewrite kr_mul by (auto; first [apply is_perm_ptransp; lia | apply is_perm_pcyc; lia]).
        apply rsum_ext. intros x Hx. cbn. rewrite VA by auto. reflexivity. }
      eexists. split; [reflexivity|]. cbn [madd rows_put m_n0 m_n1 m_at]. split; [congruence|]. split; [congruence|]. split; [congruence|]. split; [congruence|]. replace (i - 1 + 1) with i by lia. split; auto.
      intros a b Ha Hb. rewrite (zrange_cons i k) by lia. rewrite lsum_cons. rewrite V by auto. rewrite VS by (cbn; first [lia | auto]).
      rewrite <- (cycle_back i k) by lia. rewrite kr_mul by (auto; apply is_perm_pcyc; lia). unfold mprod. fold d. rewrite Rplus_comm. f_equal. apply rsum_ext. intros x Hx. cbn. rewrite W by auto. reflexivity.
    - rewrite E. cbn [bind fst]. exists M. split; auto.
  Qed.

  Definition jmsum (k : Z) (i j : Z) : R := lsum (zrange 1 k) (fun a => kr (ptransp n a k) i j).

  Lemma pinv_ptransp a b : 1 <= a <= n -> 1 <= b <= n -> pinv (ptransp n a b) = ptransp n a b.
  Proof.
    intros Ha Hb. pose proof (is_perm_ptransp n a b Ha Hb) as P. pose proof (is_perm_pinv _ _ P) as Q.
    apply (perm_ext n); [apply is_perm_len; auto|apply is_perm_len; auto|]. intros i Hi.
    pose proof (is_perm_img _ _ i P Hi) as B.
    assert (img (ptransp n a b) (img (ptransp n a b) i) = i) as E.
    { pose proof (ptransp_invol n a b Ha Hb) as X. rewrite <- (img_pmul (ptransp n a b)) by (rewrite (is_perm_len _ _ P); lia). rewrite X. apply img_pid. lia. }
    rewrite <- E at 1. apply (img_pinv_l n); auto.
  Qed.

  Lemma jmsum_sym k i j : 1 <= k <= n -> 0 <= i < pr_d o0 o1 -> 0 <= j < pr_d o0 o1 -> jmsum k i j = jmsum k j i.
  Proof.
    intros Hk Hi Hj. unfold jmsum. apply lsum_ext. intros a Ha. apply in_zrange in Ha. rewrite <- (kr_inv (ptransp n a k) i j) by (auto; apply is_perm_ptransp; lia).
    rewrite pinv_ptransp by lia. reflexivity.
  Qed.

  Lemma jmsum_comm k p i j : 1 <= k <= n -> is_perm n p -> (forall x, k <= x <= n -> img p x = x) -> 0 <= i < pr_d o0 o1 ->
    mprod (pr_d o0 o1) (kr p) (jmsum k) i j = mprod (pr_d o0 o1) (jmsum k) (kr p) i j.
  Proof.
    intros Hk P F Hi. assert (forall x y, 1 <= x <= n -> 1 <= y <= n -> img p x = img p y -> x = y) as Inj by (intros; apply (img_inj n p); auto).
    assert (forall x, 1 <= x < k -> 1 <= img p x < k) as Low.
    { intros x Hx. pose proof (is_perm_img _ _ x P ltac:(lia)) as B. split; [lia|]. destruct (Z.ltb_spec (img p x) k); auto. exfalso.
      assert (img p x = x) by (apply Inj; [lia|lia|apply F; lia]). lia. }
    transitivity (lsum (zrange 1 k) (fun a => kr (pmul p (ptransp n a k)) i j)).
    { rewrite (lsum_ext _ _ (fun a => rsum (pr_d o0 o1) (fun x => kr p i x * kr (ptransp n a k) x j)%R)).
      - unfold mprod, jmsum. rewrite rsum_lsum. rewrite (lsum_ext (zrange 0 (pr_d o0 o1)) _ (fun x => lsum (zrange 1 k) (fun a => kr p i x * kr (ptransp n a k) x j)%R)) by (intros; rewrite <- lsum_scal; reflexivity).
        rewrite lsum_swap. apply lsum_ext. intros. rewrite rsum_lsum. reflexivity.
      - intros a Ha. apply in_zrange in Ha. apply kr_mul; auto. apply is_perm_ptransp; lia. }
    transitivity (lsum (zrange 1 k) (fun a => kr (pmul (ptransp n a k) p) i j)).
    2:{ symmetry. rewrite (lsum_ext (zrange 1 k) _ (fun a => rsum (pr_d o0 o1) (fun x => kr (ptransp n a k) i x * kr p x j)%R)).
      - unfold mprod, jmsum. rewrite rsum_lsum. rewrite (lsum_ext (zrange 0 (pr_d o0 o1)) _ (fun x => lsum (zrange 1 k) (fun a => kr (ptransp n a k) i x * kr p x j)%R)) by (intros; rewrite <- lsum_scal_r; reflexivity).
        rewrite lsum_swap. apply lsum_ext. intros. rewrite rsum_lsum. reflexivity.
      - intros a Ha. apply in_zrange in Ha. apply kr_mul; auto. apply is_perm_ptransp; lia. }
    rewrite <- (lsum_reindex (zrange 1 k) (img p) (fun a => kr (pmul (ptransp n a k) p) i j)).
    - apply lsum_ext. intros a Ha. apply in_zrange in Ha. f_equal. pose proof (Low a Ha) as La.
      pose proof (is_perm_ptransp n a k ltac:(lia) ltac:(lia)) as Q1. pose proof (is_perm_ptransp n (img p a) k ltac:(lia) ltac:(lia)) as Q2.
      apply (perm_ext n); [apply is_perm_len; apply (is_perm_pmul n); auto|apply is_perm_len; apply (is_perm_pmul n); auto|].
      intros x Hx. rewrite (img_pmul p) by (rewrite (is_perm_len _ _ Q1); lia). rewrite (img_pmul (ptransp n (img p a) k) p) by (rewrite (is_perm_len _ _ P); lia).
      pose proof (is_perm_img _ _ x P Hx). rewrite !img_ptransp by lia. unfold tfun.
      destruct (Z.eqb_spec x a) as [->|Na]; [rewrite Z.eqb_refl; apply F; lia|]. destruct (Z.eqb_spec (img p x) (img p a)) as [e|_]; [exfalso; apply Na; apply Inj; auto; lia|].
      destruct (Z.eqb_spec x k) as [->|Nk]; [rewrite (F k) by lia; rewrite Z.eqb_refl; reflexivity|].
      destruct (Z.eqb_spec (img p x) k) as [e|_]; [|reflexivity]. exfalso. apply Nk. apply Inj; [lia|lia|]. rewrite (F k) by lia. auto.
    - apply NoDup_zrange.
    - intros x Hx. apply in_zrange in Hx. apply in_zrange. apply Low. auto.
    - intros x y Hx Hy. apply in_zrange in Hx, Hy. apply Inj; lia.
  Qed.

  Lemma jmsum_jmsum k k' i j : 1 <= k <= n -> 1 <= k' -> k' < k -> 0 <= i < pr_d o0 o1 ->
    mprod (pr_d o0 o1) (jmsum k') (jmsum k) i j = mprod (pr_d o0 o1) (jmsum k) (jmsum k') i j.
  Proof.
    intros Hk Hk' Hlt Hi. transitivity (lsum (zrange 1 k') (fun a => mprod (pr_d o0 o1) (kr (ptransp n a k')) (jmsum k) i j)).
    - unfold mprod. rewrite rsum_lsum. unfold jmsum at 1. rewrite (lsum_ext (zrange 0 (pr_d o0 o1)) _ (fun x => lsum (zrange 1 k') (fun a => kr (ptransp n a k') i x * jmsum k x j)%R)) by (intros; rewrite <- lsum_scal_r; reflexivity).
      rewrite lsum_swap. apply lsum_ext. intros. rewrite rsum_lsum. reflexivity.
    - transitivity (lsum (zrange 1 k') (fun a => mprod (pr_d o0 o1) (jmsum k) (kr (ptransp n a k')) i j)).
      + apply lsum_ext. intros a Ha. apply in_zrange in Ha. apply jmsum_comm; auto; [apply is_perm_ptransp; lia|]. intros x Hx. rewrite img_ptransp by lia. unfold tfun. zc.
      + symmetry. unfold mprod. rewrite rsum_lsum. unfold jmsum at 2. rewrite (lsum_ext (zrange 0 (pr_d o0 o1)) _ (fun x => lsum (zrange 1 k') (fun a => jmsum k i x * kr (ptransp n a k') x j)%R)) by (intros; rewrite <- lsum_scal; reflexivity).
        rewrite lsum_swap. apply lsum_ext. intros. rewrite rsum_lsum. reflexivity.
  Qed.
End Prod.

Lemma moved_pr_matrix n l0 l1 o0 o1 p T r : good n l0 o0 -> good n l1 o1 -> is_perm n p -> moved_pr n o0 o1 p T r ->
  exists M0 M1 T', irr_matrix o0 p = Ret M0 /\ irr_matrix o1 p = Ret M1 /\ r = Ret T' /\
    t_n0 T' = t_n0 T /\ t_n1 T' = t_n1 T /\ t_n2 T' = t_n2 T /\
    forall a i b, 0 <= a < t_n0 T -> 0 <= i < pr_d o0 o1 -> 0 <= b < t_n2 T ->
      t_at T' a i b = rsum (pr_d o0 o1) (fun k => (kronecker (io_d o1) (m_at M0) (m_at M1) i k * t_at T a k b)%R).
Proof.
  intros G0 G1 P (T' & E & (D0 & D1 & D2) & V). destruct (matrix_ok n l0 o0 G0 p P) as (M0 & E0 & _ & _ & V0). destruct (matrix_ok n l1 o1 G1 p P) as (M1 & E1 & _ & _ & V1).
  exists M0, M1, T'. split; auto. split; auto. split; auto. split; auto. split; auto. split; auto. intros a i b Ha Hi Hb. rewrite V by auto. apply rsum_ext. intros k Hk.
  pose proof (good_dpos _ _ _ G1). destruct (dm_range _ _ _ Hi) as (R0 & R1); auto. destruct (dm_range _ _ _ Hk) as (Q0 & Q1); auto.
  unfold kr, kronecker. rewrite V0, V1 by auto. reflexivity.
Qed.

Lemma product_apply n l0 l1 o0 o1 tau T : is_part n l0 -> is_part n l1 -> irr_new l0 = Ret o0 -> irr_new l1 = Ret o1 -> 1 <= tau < n ->
  t_n1 T = pr_d o0 o1 -> 0 <= t_n0 T -> 0 <= t_n2 T ->
  exists t M0 M1 T', p_transposition n tau (tau + 1) = Ret t /\ irr_matrix o0 t = Ret M0 /\ irr_matrix o1 t = Ret M1 /\ pr_apply o0 o1 tau T = Ret T' /\
    t_n0 T' = t_n0 T /\ t_n1 T' = t_n1 T /\ t_n2 T' = t_n2 T /\
    forall a i b, 0 <= a < t_n0 T -> 0 <= i < pr_d o0 o1 -> 0 <= b < t_n2 T ->
      t_at T' a i b = rsum (pr_d o0 o1) (fun k => (kronecker (io_d o1) (m_at M0) (m_at M1) i k * t_at T a k b)%R).
Proof.
  intros P0 P1 E0 E1 Ht N1 N0 N2. pose proof (irr_new_good n l0 o0 P0 ltac:(lia) E0) as G0. pose proof (irr_new_good n l1 o1 P1 ltac:(lia) E1) as G1.
  exists (ptransp n tau (tau + 1)). destruct (moved_pr_matrix n l0 l1 o0 o1 (ptransp n tau (tau + 1)) T (pr_apply o0 o1 tau T)) as (M0 & M1 & T' & K); auto; [apply is_perm_ptransp; lia|apply (pr_apply_ok n l0 l1); auto|].
  exists M0, M1, T'. split; [apply p_transposition_ok; lia|exact K].
Qed.

Lemma product_cycle n l0 l1 o0 o1 a b T : is_part n l0 -> is_part n l1 -> irr_new l0 = Ret o0 -> irr_new l1 = Ret o1 -> 1 <= a <= n -> 1 <= b <= n ->
  t_n1 T = pr_d o0 o1 -> 0 <= t_n0 T -> 0 <= t_n2 T ->
  exists t M0 M1 T', p_contiguous_cycle n a b = Ret t /\ irr_matrix o0 t = Ret M0 /\ irr_matrix o1 t = Ret M1 /\ pr_cycle o0 o1 (mkCyc a b) T = Ret T' /\
    t_n0 T' = t_n0 T /\ t_n1 T' = t_n1 T /\ t_n2 T' = t_n2 T /\
    forall x i y, 0 <= x < t_n0 T -> 0 <= i < pr_d o0 o1 -> 0 <= y < t_n2 T ->
      t_at T' x i y = rsum (pr_d o0 o1) (fun k => (kronecker (io_d o1) (m_at M0) (m_at M1) i k * t_at T x k y)%R).
Proof.
  intros P0 P1 E0 E1 Ha Hb N1 N0 N2. pose proof (irr_new_good n l0 o0 P0 ltac:(lia) E0) as G0. pose proof (irr_new_good n l1 o1 P1 ltac:(lia) E1) as G1.
  exists (pcyc n a b). destruct (moved_pr_matrix n l0 l1 o0 o1 (pcyc n a b) T (pr_cycle o0 o1 (mkCyc a b) T)) as (M0 & M1 & T' & K); auto; [apply is_perm_pcyc; lia|apply (pr_cycle_ok n l0 l1); auto|].
  exists M0, M1, T'. split; [apply p_contiguous_cycle_ok; lia|exact K].
Qed.

Lemma zrange_shift k : zrange 1 k = map (fun a => a + 1) (zrange 0 (k - 1)).
Proof.
  apply (list_ext _ _ 0); [rewrite zlen_map, !zlen_zrange; lia|]. intros a Ha. rewrite zlen_zrange in Ha. rewrite (znth_map _ _ _ 0) by (rewrite zlen_zrange; lia). rewrite !znth_zrange by lia. lia.
Qed.

Lemma product_jm n l0 l1 o0 o1 k : is_part n l0 -> is_part n l1 -> irr_new l0 = Ret o0 -> irr_new l1 = Ret o1 -> 1 <= k -> k <= n ->
  exists M A B, pr_jm o0 o1 k = Ret M /\ m_n0 M = io_d o0 * io_d o1 /\ m_n1 M = io_d o0 * io_d o1 /\
    (forall a, 1 <= a < k -> exists t, p_transposition n a k = Ret t /\ irr_matrix o0 t = Ret (A a) /\ irr_matrix o1 t = Ret (B a)) /\
    agree (io_d o0 * io_d o1) (io_d o0 * io_d o1) (m_at M) (fun i j => rsum (k - 1) (fun a => kronecker (io_d o1) (m_at (A (a + 1))) (m_at (B (a + 1))) i j)).
Proof.
  intros P0 P1 E0 E1 Hk Hkn. pose proof (irr_new_good n l0 o0 P0 ltac:(lia) E0) as G0. pose proof (irr_new_good n l1 o1 P1 ltac:(lia) E1) as G1.
  destruct (pr_jm_ok n l0 l1 o0 o1 G0 G1 k Hk Hkn) as (M & EM & M0 & M1 & V).
  exists M, (fun a => match irr_matrix o0 (ptransp n a k) with Ret m => m | _ => M end), (fun a => match irr_matrix o1 (ptransp n a k) with Ret m => m | _ => M end).
  split; auto. split; auto. split; auto. split.
  - intros a Ha. exists (ptransp n a k). split; [apply p_transposition_ok; lia|].
    destruct (matrix_ok n l0 o0 G0 (ptransp n a k)) as (Ma & Ea & _); [apply is_perm_ptransp; lia|]. rewrite Ea.
    destruct (matrix_ok n l1 o1 G1 (ptransp n a k)) as (Mb & Eb & _); [apply is_perm_ptransp; lia|]. rewrite Eb. auto.
  - intros i j Hi Hj. rewrite V by auto. rewrite rsum_lsum. rewrite zrange_shift, lsum_map. apply lsum_ext. intros a Ha. apply in_zrange in Ha.
    destruct (matrix_ok n l0 o0 G0 (ptransp n (a + 1) k)) as (Ma & Ea & _ & _ & Va); [apply is_perm_ptransp; lia|]. rewrite Ea.
    destruct (matrix_ok n l1 o1 G1 (ptransp n (a + 1) k)) as (Mb & Eb & _ & _ & Vb); [apply is_perm_ptransp; lia|]. rewrite Eb.
    pose proof (good_dpos _ _ _ G1). destruct (dm_range _ _ _ Hi) as (R0 & R1); auto. destruct (dm_range _ _ _ Hj) as (Q0 & Q1); auto.
    unfold kr, kronecker. rewrite Va, Vb by auto. reflexivity.
Qed.

Lemma mprod_agree d A B A' B' : agree d d A A' -> agree d d B B' -> agree d d (mprod d A B) (mprod d A' B').
Proof. intros HA HB i j Hi Hj. unfold mprod. apply rsum_ext. intros k Hk. rewrite HA, HB by auto. reflexivity. Qed.

Lemma product_jm_symmetric n l0 l1 o0 o1 k M : is_part n l0 -> is_part n l1 -> irr_new l0 = Ret o0 -> irr_new l1 = Ret o1 -> 1 <= k -> k <= n ->
  pr_jm o0 o1 k = Ret M -> agree (io_d o0 * io_d o1) (io_d o0 * io_d o1) (m_at M) (mtrans (m_at M)).
Proof.
  intros P0 P1 E0 E1 Hk Hkn EM i j Hi Hj. pose proof (irr_new_good n l0 o0 P0 ltac:(lia) E0) as G0. pose proof (irr_new_good n l1 o1 P1 ltac:(lia) E1) as G1.
  destruct (pr_jm_ok n l0 l1 o0 o1 G0 G1 k Hk Hkn) as (M' & EM' & M0 & M1 & V). assert (M' = M) by congruence. subst M'. unfold mtrans. rewrite !V by auto.
  apply (jmsum_sym n l0 l1 o0 o1 G0 G1 k i j); auto.
Qed.

Lemma product_jm_commutes n l0 l1 o0 o1 k p M A B : is_part n l0 -> is_part n l1 -> irr_new l0 = Ret o0 -> irr_new l1 = Ret o1 -> 1 <= k -> k <= n ->
  is_perm n p -> (forall x, k <= x <= n -> img p x = x) -> pr_jm o0 o1 k = Ret M -> irr_matrix o0 p = Ret A -> irr_matrix o1 p = Ret B ->
  let d := io_d o0 * io_d o1 in let K := kronecker (io_d o1) (m_at A) (m_at B) in
  agree d d (mprod d K (m_at M)) (mprod d (m_at M) K).
Proof.
  intros P0 P1 E0 E1 Hk Hkn P F EM EA EB d K. pose proof (irr_new_good n l0 o0 P0 ltac:(lia) E0) as G0. pose proof (irr_new_good n l1 o1 P1 ltac:(lia) E1) as G1.
  destruct (pr_jm_ok n l0 l1 o0 o1 G0 G1 k Hk Hkn) as (M' & EM' & M0 & M1 & V). assert (M' = M) by congruence. subst M'.
  destruct (matrix_ok n l0 o0 G0 p P) as (A' & EA' & _ & _ & VA). destruct (matrix_ok n l1 o1 G1 p P) as (B' & EB' & _ & _ & VB). assert (A' = A) by congruence. assert (B' = B) by congruence. subst A' B'.
  assert (agree d d K (kr n o0 o1 p)) as HK.
  { intros i j Hi Hj. pose proof (good_dpos _ _ _ G1). destruct (dm_range _ _ _ Hi) as (R0 & R1); auto. destruct (dm_range _ _ _ Hj) as (Q0 & Q1); auto.
    unfold K, kr, kronecker. rewrite VA, VB by auto. reflexivity. }
  assert (agree d d (m_at M) (jmsum n o0 o1 k)) as HM by exact V. intros i j Hi Hj.
  rewrite (mprod_agree d _ _ _ _ HK HM) by auto. rewrite (mprod_agree d _ _ _ _ HM HK) by auto. apply (jmsum_comm n l0 l1 o0 o1 G0 G1 k p i j); auto.
Qed.

Lemma product_jms_commute n l0 l1 o0 o1 k k' M N : is_part n l0 -> is_part n l1 -> irr_new l0 = Ret o0 -> irr_new l1 = Ret o1 -> 1 <= k <= n -> 1 <= k' <= n ->
  pr_jm o0 o1 k = Ret M -> pr_jm o0 o1 k' = Ret N ->
  let d := io_d o0 * io_d o1 in agree d d (mprod d (m_at M) (m_at N)) (mprod d (m_at N) (m_at M)).
Proof.
  intros P0 P1 E0 E1 Hk Hk' EM EN d. pose proof (irr_new_good n l0 o0 P0 ltac:(lia) E0) as G0. pose proof (irr_new_good n l1 o1 P1 ltac:(lia) E1) as G1.
  destruct (pr_jm_ok n l0 l1 o0 o1 G0 G1 k) as (M' & EM' & M0 & M1 & V); try lia. assert (M' = M) by congruence. subst M'.
  destruct (pr_jm_ok n l0 l1 o0 o1 G0 G1 k') as (N' & EN' & N0 & N1 & W); try lia. assert (N' = N) by congruence. subst N'.
  assert (agree d d (m_at M) (jmsum n o0 o1 k)) as HM by exact V. assert (agree d d (m_at N) (jmsum n o0 o1 k')) as HN by exact W. intros i j Hi Hj.
  rewrite (mprod_agree d _ _ _ _ HM HN) by auto. rewrite (mprod_agree d _ _ _ _ HN HM) by auto.
  destruct (Z.lt_trichotomy k k') as [H|[->|H]]; [|reflexivity|].
  - apply (jmsum_jmsum n l0 l1 o0 o1 G0 G1 k' k i j); auto; lia.
  - symmetry. apply (jmsum_jmsum n l0 l1 o0 o1 G0 G1 k k' i j); auto; lia.
Qed.

Lemma tr_move n l o a b c : good n l o -> 1 <= a <= n -> 1 <= b <= n -> 1 <= c <= n -> a <> b -> a <> c -> trace (io_d o) (rho n o (ptransp n a b)) = trace (io_d o) (rho n o (ptransp n a c)).
Proof.
  intros G Ha Hb Hc Nb Nc. pose proof (is_perm_ptransp n a b Ha Hb) as P. pose proof (is_perm_ptransp n b c Hb Hc) as Q. pose proof (is_perm_ptransp n a c Ha Hc) as R.
  apply (trace_conj n l o G (ptransp n a b) (ptransp n b c)); auto.
  apply (perm_ext n); [apply is_perm_len; apply (is_perm_pmul n); auto|apply is_perm_len; apply (is_perm_pmul n); auto|].
  intros x Hx. rewrite (img_pmul (ptransp n a b)) by (rewrite (is_perm_len _ _ Q); lia). rewrite (img_pmul (ptransp n b c) (ptransp n a c)) by (rewrite (is_perm_len _ _ R); lia).
  pose proof (is_perm_img _ _ x Q Hx). pose proof (is_perm_img _ _ x R Hx). rewrite (img_ptransp n a b), (img_ptransp n b c (img (ptransp n a c) x)) by lia. rewrite !img_ptransp by lia. unfold tfun. zc.
Qed.

Lemma tr_any n l o a b x y : good n l o -> 1 <= a <= n -> 1 <= b <= n -> 1 <= x <= n -> 1 <= y <= n -> a <> b -> x <> y -> trace (io_d o) (rho n o (ptransp n a b)) = trace (io_d o) (rho n o (ptransp n x y)).
Proof.
  intros G Ha Hb Hx Hy Nab Nxy. destruct (Z.eq_dec a y) as [->|N].
  - rewrite (tr_move n l o y b x) by auto. rewrite ptransp_sym. reflexivity.
  - rewrite (tr_move n l o a b y) by auto. rewrite (ptransp_sym n a y), (ptransp_sym n x y). apply (tr_move n l); auto.
Qed.

Lemma lsum_trace n l0 l1 o0 o1 (G0 : good n l0 o0) (G1 : good n l1 o1) k M :
  (forall i j, 0 <= i < pr_d o0 o1 -> 0 <= j < pr_d o0 o1 -> m_at M i j = lsum (zrange 1 k) (fun a => kr n o0 o1 (ptransp n a k) i j)) ->
  trace (io_d o0 * io_d o1) (m_at M) = lsum (zrange 1 k) (fun a => trace (pr_d o0 o1) (kr n o0 o1 (ptransp n a k))).
Proof.
  intros V. unfold trace. fold (pr_d o0 o1). rewrite (rsum_ext _ _ (fun i => lsum (zrange 1 k) (fun a => kr n o0 o1 (ptransp n a k) i i))) by (intros; apply V; auto).
  rewrite rsum_lsum, lsum_swap. apply lsum_ext. intros. rewrite rsum_lsum. reflexivity.
Qed.

Lemma product_jm_trace n l0 l1 o0 o1 k x y t M A B : is_part n l0 -> is_part n l1 -> irr_new l0 = Ret o0 -> irr_new l1 = Ret o1 -> 1 <= k -> k <= n ->
  1 <= x <= n -> 1 <= y <= n -> x <> y -> p_transposition n x y = Ret t -> pr_jm o0 o1 k = Ret M -> irr_matrix o0 t = Ret A -> irr_matrix o1 t = Ret B ->
  trace (io_d o0 * io_d o1) (m_at M) = (IZR (k - 1) * (trace (io_d o0) (m_at A) * trace (io_d o1) (m_at B)))%R.
Proof.
  intros P0 P1 E0 E1 Hk Hkn Hx Hy Nxy Et EM EA EB. pose proof (irr_new_good n l0 o0 P0 ltac:(lia) E0) as G0. pose proof (irr_new_good n l1 o1 P1 ltac:(lia) E1) as G1.
  rewrite p_transposition_ok in Et by auto. apply Ret_inj in Et. subst t. pose proof (is_perm_ptransp n x y Hx Hy) as P.
  destruct (pr_jm_ok n l0 l1 o0 o1 G0 G1 k Hk Hkn) as (M' & EM' & M0 & M1 & V). assert (M' = M) by congruence. subst M'.
  destruct (matrix_ok n l0 o0 G0 _ P) as (A' & EA' & _ & _ & VA). destruct (matrix_ok n l1 o1 G1 _ P) as (B' & EB' & _ & _ & VB). assert (A' = A) by congruence. assert (B' = B) by congruence. subst A' B'.
  rewrite (lsum_trace n l0 l1 o0 o1 G0 G1 k M V).
  rewrite (lsum_ext _ _ (fun _ => (trace (io_d o0) (m_at A) * trace (io_d o1) (m_at B))%R)).
  - rewrite lsum_const, zlen_zrange. do 2 f_equal. lia.
  - intros a Ha. apply in_zrange in Ha. rewrite (kr_trace n l0 l1 o0 o1 G0 G1). f_equal.
    + rewrite (tr_any n l0 o0 a k x y) by (auto; lia). apply rsum_ext. intros i Hi. symmetry. apply VA; auto.
    + rewrite (tr_any n l1 o1 a k x y) by (auto; lia). apply rsum_ext. intros i Hi. symmetry. apply VB; auto.
Qed.
