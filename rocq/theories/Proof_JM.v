(* Jucys-Murphy elements and characters. *)
From Coq Require Import ZArith List Bool Lia ZifyBool ZifyNat Reals Lra.
From Verif Require Import Model_Base Model_Perm Model_Part Model_Comb Model_Tab Model_Irrep.
From Verif Require Import Spec_Perm Spec_Part Spec_Tab Spec_Rep.
From Verif Require Import Proof_Base Proof_Perm Proof_PermProps Proof_Part Proof_Tab Proof_TabProps Proof_Cycles Proof_Cox Proof_Yor Proof_Sum Proof_Irrep Proof_Rep Proof_Mat Proof_IrrepProps Proof_Block.
Import ListNotations.
Open Scope Z_scope.

Lemma TT_ext_std n l i f g t : is_part n l -> 1 <= i < n -> standard l t -> eqS l f g -> TT i f t = TT i g t.
Proof. intros P Hi S E. apply (TT_eqS n l i f g P Hi E t S). Qed.

Lemma Phi_gen n l i f t : is_part n l -> 1 <= i < n -> standard l t -> Phi n (ptransp n i (i + 1)) f t = TT i f t.
Proof.
  intros P Hi S. assert (1 <= n) by lia. assert (forall j, In j [i] -> 1 <= j < n) as Hw by (intros j [<-|[]]; lia).
  pose proof (word_Phi n l [i] f P ltac:(lia) Hw t S) as E. change (aw TT [i] f t) with (TT i f t) in E. rewrite E. f_equal. change (aw (pstep n) [i] (pid n)) with (pw n [i]).
  apply (perm_ext n); [apply is_perm_len; apply is_perm_ptransp; lia|apply is_perm_len; apply is_perm_pw; auto; lia|].
  intros k Hk. rewrite img_ptransp by lia. unfold pw, aw; cbn [fold_left]. rewrite img_pstep by (auto; apply is_perm_pid; lia). rewrite img_pid by lia. reflexivity.
Qed.

Lemma ptransp_conj n i k : 1 <= i -> i < k -> k + 1 <= n -> ptransp n i (k + 1) = pmul (ptransp n k (k + 1)) (pmul (ptransp n i k) (ptransp n k (k + 1))).
Proof.
  intros Hi Hk Hn. assert (is_perm n (ptransp n k (k + 1))) as P1 by (apply is_perm_ptransp; lia). assert (is_perm n (ptransp n i k)) as P2 by (apply is_perm_ptransp; lia).
  assert (is_perm n (pmul (ptransp n i k) (ptransp n k (k + 1)))) as P3 by (apply (is_perm_pmul n); auto).
  apply (perm_ext n); [apply is_perm_len; apply is_perm_ptransp; lia|apply is_perm_len; apply (is_perm_pmul n); auto|].
  intros j Hj. rewrite img_pmul by (rewrite (is_perm_len _ _ P3); lia). rewrite (img_pmul (ptransp n i k)) by (rewrite (is_perm_len _ _ P1); lia).
  pose proof (is_perm_img _ _ j P1 Hj) as B1. pose proof (is_perm_img _ _ _ P2 B1) as B2.
  rewrite (img_ptransp n k (k + 1) j) in * by lia. rewrite (img_ptransp n i k) in * by lia. rewrite !img_ptransp by lia. unfold tfun. zc.
Qed.

Lemma cont_one n l t : is_part n l -> 1 <= n -> standard l t -> cont t 1 = 0.
Proof.
  intros P Hn S. destruct (standard_pos n l t 1 P S ltac:(lia)) as (r & c & C & E & D). rewrite D.
  assert (forall r c, cell l r c -> 1 <= entry t r c) as Pos by (intros r' c' C'; apply (standard_entry_range l t r' c' S C')).
  destruct S as (Sh & Pc & Hr & Hcl).
  destruct (Z.eq_dec c 0) as [->|Nc].
  - destruct (Z.eq_dec r 0) as [->|Nr]; [lia|]. exfalso. assert (cell l (r - 1) 0) as C0.
    { apply cell_rows in C as Cr. apply (cell_down n l (r - 1) 0 r 0); auto; lia. }
    pose proof (Hcl (r - 1) 0 C0) as K. replace (r - 1 + 1) with r in K by lia. specialize (K C). pose proof (Pos _ _ C0). lia.
  - exfalso. assert (cell l r (c - 1)) as C0 by (destruct C as (C1 & C2); split; auto; lia).
    pose proof (Hr r (c - 1) C0) as K. replace (c - 1 + 1) with c in K by lia. specialize (K C). pose proof (Pos _ _ C0). lia.
Qed.

Lemma jm_content n l t f k : is_part n l -> standard l t -> 1 <= k -> k <= n ->
  lsum (zrange 1 k) (fun i => Phi n (ptransp n i k) f t) = (IZR (cont t k) * f t)%R.
Proof.
  intros P S Hk. revert t f S. pattern k. apply Zlt_lower_bound_ind with (z := 1); auto. clear k Hk. intros k IH Hk t f S Hkn.
  destruct (Z.eq_dec k 1) as [->|Nk].
  - rewrite zrange_nil by lia. rewrite lsum_nil, (cont_one n l) by (auto; lia). ring.
  - set (j := k - 1). assert (k = j + 1) as Ek by (unfold j; lia). rewrite Ek in *. clearbody j. rewrite zrange_snoc by lia. rewrite lsum_app. unfold lsum at 2. cbn [map fold_right].
    rewrite (Phi_gen n l) by (auto; lia).
    assert (1 <= j < n) as Hj by lia. pose proof (is_perm_ptransp n j (j + 1) ltac:(lia) ltac:(lia)) as Pj.
    (* the transpositions with j+1 are conjugated into those with j *)
    rewrite (lsum_ext _ _ (fun i => TT j (Phi n (ptransp n i j) (TT j f)) t)).
    2:{ intros i Hi. apply in_zrange in Hi. rewrite ptransp_conj by lia. pose proof (is_perm_ptransp n i j ltac:(lia) ltac:(lia)) as Pij.
        rewrite (Phi_mul n l) by (auto; apply (is_perm_pmul n); auto). rewrite (Phi_gen n l) by auto.
        apply (TT_ext_std n l); auto. intros u Su. rewrite (Phi_mul n l) by auto. apply (Phi_eqS n l); auto. intros v Sv. apply (Phi_gen n l); auto. }
    set (g := TT j f).
    assert (lsum (zrange 1 j) (fun i => TT j (Phi n (ptransp n i j) g) t) = TT j (fun u => (IZR (cont u j) * g u)%R) t) as E.
    { rewrite (TT_ext_std n l j _ (fun u => lsum (zrange 1 j) (fun i => Phi n (ptransp n i j) g u)) t P Hj S).
      - unfold TT. rewrite <- !lsum_scal, <- lsum_plus. reflexivity.
      - intros u Su. symmetry. apply IH; auto; lia. }
    rewrite E. unfold g, TT. pose proof (standard_fill n l t P S) as F.
    rewrite (del_swap n) by (auto; lia). rewrite Sd_opp, Dd_opp, (tswap_inv j (j + 1) t).
    rewrite (cont_fill n t j (j + 1) j F) by lia. rewrite swp_1.
    pose proof (del_nz n l t j P S Hj) as NZ. pose proof (Sd_sq _ NZ) as SQ.
    assert (IZR (cont t (j + 1)) = (IZR (cont t j) + IZR (del j t))%R) as Ec by (rewrite <- plus_IZR; f_equal; unfold del; lia).
    assert ((Dd (del j t) * IZR (del j t) = 1)%R) as DD by (unfold Dd; field; apply not_0_IZR; auto).
    set (s := Sd (del j t)) in *. set (d := Dd (del j t)) in *. set (z := IZR (del j t)) in *. set (c := IZR (cont t j)) in *. rewrite Ec.
    set (x := f t). set (y := f (tswap j (j + 1) t)).
    replace (d * (c * (d * x + s * y)) + s * ((c + z) * (- d * y + s * x)) + (d * x + s * y + 0))%R
      with ((d * d * c + (s * s) * (c + z) + d) * x + s * (1 - d * z) * y)%R by ring.
    rewrite SQ. rewrite DD.
    replace (d * d * c + (1 - d * d) * (c + z) + d)%R with (c + z + d * (1 - d * z))%R by ring. rewrite DD. ring.
Qed.

Section JM.
  Variables (n : Z) (l : list Z) (o : irr).
  Hypothesis G : good n l o.

  Lemma coltr_entry w A : (forall j, In j w -> 1 <= j < n) -> coltr o (incols 0 (io_d o)) w (mident (io_d o)) A ->
    forall i j, 0 <= i < io_d o -> 0 <= j < io_d o -> m_at A i j = rho n o (pw n w) i j.
  Proof.
    intros Hw (N0 & N1 & V) i j Hi Hj. rewrite V by auto. rewrite incols_in by auto. unfold rho.
    pose proof (proj1 (proj2 G)) as Hn. rewrite (word_Phi n l w) by (first [lia | exact (proj1 G) | eapply tb_standard; eassumption | assumption]). fold (pw n w).
    apply (Phi_eqS n l); [apply G|apply is_perm_pw; auto; lia| |eapply tb_standard; eauto].
    intros t St. unfold fcol. cbn. unfold delta. destruct (Z.eqb_spec (pos o t) j), (Z.eq_dec (pos o t) j); auto; contradiction.
  Qed.

  Lemma word_coltr w A : (forall j, In j w -> 1 <= j < n) -> m_n0 A = io_d o -> 0 <= m_n1 A ->
    exists A', foldM (irr_apply o) w A = Ret A' /\ coltr o (incols 0 (m_n1 A)) w A A'.
  Proof.
    intros Hw N0 N1. destruct (acts_word n l o G _ _ _ _ (acts_mat n l o G (m_n1 A) N1) w A Hw (conj N0 eq_refl)) as (A' & E & (M0 & M1) & V).
    exists A'. split; auto. split; [congruence|]. split; auto.
  Qed.

  Lemma jm_matrix_ok k : 1 <= k -> k <= n -> exists M, irr_jm_matrix o k = Ret M /\ m_n0 M = io_d o /\ m_n1 M = io_d o /\
    forall i j, 0 <= i < io_d o -> 0 <= j < io_d o -> m_at M i j = lsum (zrange 1 k) (fun a => rho n o (ptransp n a k) i j).
  Proof.
    intros Hk Hkn. unfold irr_jm_matrix. replace (io_n o) with n by (symmetry; apply G). destruct (Z.leb_spec k n); [|lia]. cbn [assert_ bind].
    pose proof (io_d_nonneg o) as Hd.
    match goal with |- context [zford (k - 1) 1 ?b ?s] => set (body := b); set (st0 := s) end.
    destruct (zford_inv (fun i st => let '(M, A) := st in m_n0 M = io_d o /\ m_n1 M = io_d o /\ coltr o (incols 0 (io_d o)) (cyc (i + 1) k) (mident (io_d o)) A /\
        forall a b, 0 <= a < io_d o -> 0 <= b < io_d o -> m_at M a b = lsum (zrange (i + 1) k) (fun x => rho n o (ptransp n x k) a b)) 1 (k - 1) body st0) as ((M & A) & E & M0 & M1 & _ & V).
    - lia.
    - unfold st0. split; auto. split; auto. split; [rewrite cyc_nil by lia; apply (coltr_nil n l o G)|].
      intros a b Ha Hb. rewrite zrange_nil by lia. reflexivity.
    - intros i (M & A) Hi (M0 & M1 & K & V). unfold body. pose proof K as (A0 & A1 & _). change (m_n0 (mident (io_d o))) with (io_d o) in A0. change (m_n1 (mident (io_d o))) with (io_d o) in A1.
      destruct (word_coltr [i] A) as (A' & EA & KA); [intros j [<-|[]]; lia|auto|lia|]. rewrite A1 in KA.
      assert (irr_apply o i A = Ret A') as EA1 by (revert EA; cbn [foldM]; destruct (irr_apply o i A); cbn [bind]; congruence). rewrite EA1. cbn [bind].
      assert (coltr o (incols 0 (io_d o)) (cyc i k) (mident (io_d o)) A') as K'.
      { rewrite (cyc_split i (i + 1) k) by lia. rewrite cyc_one. apply (coltr_comp n l o G _ _ _ _ A); auto. intros j [<-|[]]; lia. }
      pose proof K' as (A0' & A1' & _). change (m_n0 (mident (io_d o))) with (io_d o) in A0'. change (m_n1 (mident (io_d o))) with (io_d o) in A1'.
      rewrite act_cycle_inv_word. destruct (word_coltr (zrange (i + 1) k) A') as (B & EB & KB); [intros j Hj; apply in_zrange in Hj; lia|auto|lia|].
      rewrite EB. cbn [bind]. rewrite A1' in KB. eexists. split; [reflexivity|]. cbn [madd m_n0 m_n1 m_at]. split; auto. split; auto. split.
      + replace (i - 1 + 1) with i by lia. auto.
      + intros a b Ha Hb. replace (i - 1 + 1) with i by lia. rewrite (zrange_cons i k) by lia. rewrite lsum_cons. rewrite V by auto.
        assert (forall j, In j (wtr i k) -> 1 <= j < n) as Hw.
        { unfold wtr. intros j Hj. apply in_app_iff in Hj as [Hj|Hj]; [apply in_cyc in Hj|apply in_zrange in Hj]; lia. }
        rewrite (coltr_entry (wtr i k) B Hw) by (auto; unfold wtr; replace (Z.min i k) with i by lia; replace (Z.max i k) with k by lia;
          apply (coltr_comp n l o G _ _ _ _ A'); auto; intros j Hj; apply in_zrange in Hj; lia).
        rewrite pw_wtr by lia. ring.
    - rewrite E. cbn [bind fst]. exists M. split; auto.
  Qed.

  Lemma jm_entry k i j : 1 <= k -> k <= n -> 0 <= i < io_d o -> 0 <= j < io_d o ->
    lsum (zrange 1 k) (fun a => rho n o (ptransp n a k) i j) = (IZR (cont (tb o i) k) * delta i j)%R.
  Proof.
    intros Hk Hkn Hi Hj. unfold rho. rewrite (jm_content n l) by (first [lia | exact (proj1 G) | eapply tb_standard; eassumption | assumption]). f_equal. unfold fcol. rewrite (pos_tb n l) by auto. reflexivity.
  Qed.
End JM.

Lemma jm_spec n l o k : is_part n l -> 1 <= k -> k <= n -> irr_new l = Ret o ->
  exists M v, irr_jm_matrix o k = Ret M /\ irr_jm o k = Ret v /\ zlen v = io_d o /\
    (forall i j, 0 <= i < io_d o -> 0 <= j < io_d o -> i <> j -> m_at M i j = 0%R) /\
    (forall i c, 0 <= i < io_d o -> has_content l (znth (io_tabs o) i []) k c -> znth v i 0%R = IZR c /\ m_at M i i = IZR c).
Proof.
  intros P Hk Hkn E. pose proof (irr_new_good n l o P ltac:(lia) E) as G. destruct (jm_matrix_ok n l o G k Hk Hkn) as (M & EM & M0 & M1 & V).
  exists M, (mdiag M). split; auto. split; [unfold irr_jm; rewrite EM; reflexivity|]. pose proof (io_d_nonneg o).
  split; [unfold mdiag; rewrite zlen_map, zlen_zrange; lia|]. split.
  - intros i j Hi Hj Nij. rewrite V by auto. rewrite (jm_entry n l o G) by auto. unfold delta. destruct (Z.eq_dec i j); [contradiction|ring].
  - intros i c Hi Hc. assert (m_at M i i = IZR c) as Em.
    { rewrite V by auto. rewrite (jm_entry n l o G) by auto. unfold delta. destruct (Z.eq_dec i i); [|contradiction].
      rewrite (has_content_cont n l _ _ _ P (tb_standard n l o i G Hi) Hc). ring. }
    split; auto. unfold mdiag. rewrite (znth_map _ _ _ 0) by (rewrite zlen_zrange; lia). rewrite znth_zrange by lia. replace (0 + i) with i by lia. auto.
Qed.

Lemma jm_is_sum n l o k : is_part n l -> 1 <= k -> k <= n -> irr_new l = Ret o ->
  exists M Ms, irr_jm_matrix o k = Ret M /\ (forall a, 1 <= a < k -> exists t, p_transposition n a k = Ret t /\ irr_matrix o t = Ret (Ms a)) /\
    agree (io_d o) (io_d o) (m_at M) (fun i j => rsum (k - 1) (fun a => m_at (Ms (a + 1)) i j)).
Proof.
  intros P Hk Hkn E. pose proof (irr_new_good n l o P ltac:(lia) E) as G. destruct (jm_matrix_ok n l o G k Hk Hkn) as (M & EM & M0 & M1 & V).
  exists M, (fun a => match irr_matrix o (ptransp n a k) with Ret m => m | _ => M end). split; auto. split.
  - intros a Ha. exists (ptransp n a k). split; [apply p_transposition_ok; lia|].
    destruct (matrix_ok n l o G (ptransp n a k)) as (Ma & Ea & _); [apply is_perm_ptransp; lia|]. rewrite Ea. reflexivity.
  - intros i j Hi Hj. rewrite V by auto. rewrite rsum_lsum.
    replace (zrange 1 k) with (map (fun a => a + 1) (zrange 0 (k - 1))).
    + rewrite lsum_map. apply lsum_ext. intros a Ha. apply in_zrange in Ha.
      destruct (matrix_ok n l o G (ptransp n (a + 1) k)) as (Ma & Ea & _ & _ & Va); [apply is_perm_ptransp; lia|]. rewrite Ea. rewrite Va by auto. reflexivity.
    + apply (list_ext _ _ 0); [rewrite zlen_map, !zlen_zrange; lia|].
      intros a Ha. rewrite zlen_map, zlen_zrange in Ha. rewrite (znth_map _ _ _ 0) by (rewrite zlen_zrange; lia).
      rewrite !znth_zrange by lia. lia.
Qed.

Lemma jm_too_large n l o k : is_part n l -> 1 <= n -> irr_new l = Ret o -> n < k -> irr_jm o k = Abort.
Proof.
  intros P Hn E Hk. pose proof (irr_new_good n l o P Hn E) as G. unfold irr_jm, irr_jm_matrix. replace (io_n o) with n by (symmetry; apply G).
  destruct (Z.leb_spec k n); [lia|]. reflexivity.
Qed.

(* histories of queries *)
Lemma jm_history n l o ks : is_part n l -> 1 <= n -> irr_new l = Ret o -> (forall k, In k ks -> 1 <= k <= n) ->
  exists c vs, foldM (fun k st => r <- irr_jm_cached o k (fst st) ;; Ret (snd r, snd st ++ [fst r])) ks ([], []) = Ret (c, vs) /\
    Forall2 (fun k v => irr_jm o k = Ret v) ks vs.
Proof.
  intros P Hn E H. pose proof (irr_new_good n l o P Hn E) as G.
  assert (forall ks c0 v0, (forall k, In k ks -> 1 <= k <= n) -> (forall k v, jm_find c0 k = Some v -> irr_jm o k = Ret v) ->
    exists c vs, foldM (fun k st => r <- irr_jm_cached o k (fst st) ;; Ret (snd r, snd st ++ [fst r])) ks (c0, v0) = Ret (c, v0 ++ vs) /\ Forall2 (fun k v => irr_jm o k = Ret v) ks vs) as K.
  { clear ks H. induction ks as [|k ks IH]; intros c0 v0 H C.
    - exists c0, []. rewrite app_nil_r. split; [reflexivity|constructor].
    - assert (1 <= k <= n) as Hk by (apply H; left; auto). destruct (jm_spec n l o k P) as (_ & v & _ & Ev & _); [lia|lia|auto|].
      assert (exists c1, irr_jm_cached o k c0 = Ret (v, c1) /\ forall k v, jm_find c1 k = Some v -> irr_jm o k = Ret v) as (c1 & E1 & C1).
      { unfold irr_jm_cached. replace (io_n o) with n by (symmetry; apply G). destruct (Z.leb_spec k n); [|lia]. cbn [assert_ bind].
        destruct (jm_find c0 k) as [v'|] eqn:F.
        - exists c0. split; auto. pose proof (C k v' F) as Q. rewrite Ev in Q. apply Ret_inj in Q. subst. reflexivity.
        - rewrite Ev. cbn [bind]. eexists. split; [reflexivity|]. intros k' v' F'. revert F'. clear IH. revert C F. clear - Ev. induction c0 as [|(j, w) c0 IH]; intros C F; cbn [app jm_find].
          + destruct (Z.eqb_spec k k') as [->|]; [|discriminate]. intros [= <-]. auto.
          + cbn [jm_find] in F. destruct (Z.eqb_spec j k'); [intros [= <-]; apply C; cbn [jm_find]; destruct (Z.eqb_spec j k'); [reflexivity|contradiction]|].
            destruct (Z.eqb_spec j k); [discriminate|]. intros F'. destruct (jm_find c0 k') as [u|] eqn:Fu.
            * assert (jm_find (c0 ++ [(k, v)]) k' = Some u) as Q by (clear - Fu; induction c0 as [|(j, w) c0 IH]; [discriminate|]; cbn [app jm_find] in *; destruct (j =? k'); auto).
              rewrite Q in F'. injection F' as <-. apply C. cbn [jm_find]. destruct (Z.eqb_spec j k'); [contradiction|auto].
            * assert (jm_find (c0 ++ [(k, v)]) k' = if k =? k' then Some v else None) as Q by (clear - Fu; induction c0 as [|(j, w) c0 IH]; [reflexivity|]; cbn [app jm_find] in *; destruct (j =? k'); [discriminate|auto]).
              rewrite Q in F'. destruct (Z.eqb_spec k k') as [->|]; [injection F' as <-; auto|discriminate]. }
      cbn [foldM fst snd]. rewrite E1. cbn [bind fst snd]. destruct (IH c1 (v0 ++ [v])) as (c & vs & Ef & F2); [intros; apply H; right; auto|auto|].
      exists c, (v :: vs). split; [|constructor; auto]. rewrite <- app_assoc in Ef. exact Ef. }
  destruct (K ks [] [] H) as (c & vs & Ef & F2); [discriminate|]. exists c, vs. auto.
Qed.
