(* Rounded arithmetic: the matrices and the characters. *)
From Coq Require Import ZArith List Bool Lia Reals Lra.
From Verif Require Import Model_Base Model_Perm Model_Part Model_Comb Model_Tab Model_Irrep Model_Float.
From Verif Require Import Spec_Perm Spec_Part Spec_Tab Spec_Rep Spec_Float.
From Verif Require Import Proof_Base Proof_Perm Proof_Part Proof_Cox Proof_Tab Proof_TabProps Proof_Yor Proof_Sum Proof_Irrep Proof_Rep Proof_Mat Proof_Char Proof_Float1 Proof_Float2 Proof_Float3.
Import ListNotations.
Open Scope R_scope.

(* the words have at most n (n - 1) / 2 and n - 1 letters *)
Lemma pword_len k : forall p, is_perm (Z.of_nat k) p -> (2 * zlen (pword k p) <= Z.of_nat k * (Z.of_nat k - 1))%Z.
Proof.
  induction k as [|k IH]; intros p P; [reflexivity|]. cbn [pword]. replace (Z.of_nat (S k)) with (Z.of_nat k + 1)%Z in * by lia.
  pose proof (IH _ (is_perm_prest (Z.of_nat k) p ltac:(lia) P)) as I. pose proof (is_perm_img _ _ (Z.of_nat k + 1) P ltac:(lia)) as B.
  rewrite zlen_app. unfold zlen at 2. rewrite rev_length, zrange_length. nia.
Qed.

Lemma cw_len mu : forall a, ppos mu -> (zlen (cw a mu) = zsum mu - zlen mu)%Z.
Proof.
  induction mu as [|m mu IH]; intros a P; [reflexivity|]. cbn [cw]. pose proof (ppos_inv _ _ P) as (P1 & P2). rewrite zlen_app, IH, zsum_cons, zlen_cons by auto.
  assert (zlen (wcyc a (a + m - 1)) = m - 1)%Z as ->; [|lia]. unfold wcyc. destruct (Z.ltb_spec a (a + m - 1)); unfold zlen, cyc; rewrite ?rev_length, zrange_length; lia.
Qed.

Lemma mu_loop {X} (act : Z -> X -> outcome X) mu : forall suf pre x, mu = pre ++ suf ->
  zfor (zlen pre) (zlen mu) (fun i st => let '(R, a) := st in m <- rd mu i ;; R <- act_cycle act (mkCyc a (a + m - 1)) R ;; Ret (R, a + m)%Z) (x, 1 + zsum pre)%Z
  = (y <- foldM act (cw (1 + zsum pre) suf) x ;; Ret (y, 1 + zsum mu)%Z).
Proof.
  induction suf as [|m suf IH]; intros pre x Emu.
  - rewrite app_nil_r in Emu. subst pre. rewrite zfor_nil by lia. reflexivity.
  - pose proof (zlen_nonneg pre). pose proof (zlen_nonneg suf).
    assert (zlen mu = zlen pre + 1 + zlen suf)%Z as Lmu by (rewrite Emu, zlen_app, zlen_cons; lia).
    rewrite zfor_cons by lia. rewrite (rd_ok _ _ 0%Z) by lia.
    assert (znth mu (zlen pre) 0%Z = m) as Em by (rewrite Emu, znth_app by lia; rewrite Z.ltb_irrefl, Z.sub_diag; reflexivity).
    rewrite Em. cbn [bind]. rewrite act_cycle_word. cbn [cw]. rewrite foldM_app.
    destruct (foldM act (wcyc (1 + zsum pre) (1 + zsum pre + m - 1)) x) as [y| | |]; cbn [bind]; try reflexivity.
    specialize (IH (pre ++ [m]) y). rewrite <- app_assoc in IH. specialize (IH Emu). rewrite zlen_app, zsum_app in IH. change (zlen [m]) with 1%Z in IH. replace (zsum [m]) with m in IH by (cbn; lia).
    replace (1 + zsum pre + m)%Z with (1 + (zsum pre + m))%Z by lia. exact IH.
Qed.

Section Values.
  Variables (F : arith) (fval : fl F -> option R) (dval : db F -> option R) (u v e B : R).
  Hypothesis Hr : rounded F fval dval u v e B.
  Hypothesis Hu : 0 <= u <= / 1000.
  Hypothesis Hv : 0 <= v <= / 1000.
  Hypothesis He : 0 <= e <= v / 1000.
  Hypothesis HB : 1000 <= B.
  Variables (n : Z) (l : list Z) (o : irr).
  Hypothesis G : good n l o.
  Hypothesis Hn : (n <= 2 ^ 25)%Z.

  Let g := gamma u v e o.

  Lemma tracks_from b w N : ftable F n o b -> (forall j, In j w -> (1 <= j < n)%Z) -> (zlen w <= N)%Z -> 2 * IZR N * g <= 1 ->
    exists A M, foldM (f_apply F o b) w (fident F (io_d o)) = Ret A /\ foldM (irr_apply o) w (mident (io_d o)) = Ret M /\ tracks F fval o (2 * IZR N * g) A M.
  Proof.
    intros T W L H. pose proof (gamma_nonneg u v e Hu Hv He o) as G0. fold g in G0. assert (INR (length w) <= IZR N) as LN by (rewrite INR_IZR_INZ; apply IZR_le; exact L).
    assert (2 * (0 + INR (length w)) * g <= 2 * IZR N * g) as Q by (apply Rmult_le_compat_r; [auto|lra]).
    destruct (tracks_word F fval dval u v e B Hr Hu Hv He HB n l o G Hn b w T W 0 (fident F (io_d o)) (mident (io_d o))) as (A & M & E1 & E2 & K).
    - fold g. lra.
    - lra.
    - rewrite Rmult_0_r, Rmult_0_l. exact (tracks_ident F fval dval u v e B Hr o).
    - exists A, M. split; [auto|]. split; [auto|]. eapply tracks_weaken; [exact K|exact Q].
  Qed.

  Lemma f_matrix_ok p : is_perm n p -> IZR (n * (n - 1)) * g <= 1 ->
    exists A M, f_matrix F o p = Ret A /\ irr_matrix o p = Ret M /\ zlen (fm_rows F A) = io_d o /\ fm_n1 F A = io_d o /\ m_n0 M = io_d o /\ m_n1 M = io_d o /\
      forall i j, (0 <= i < io_d o)%Z -> (0 <= j < io_d o)%Z -> exists a x, fget F A i j = Ret a /\ fval a = Some x /\ Rabs (x - m_at M i j) <= IZR (n * (n - 1)) * g.
  Proof.
    intros P H. pose proof (proj1 (proj2 G)) as N1. assert (io_n o = n) as En by apply G.
    destruct (f_yor_ok F n l o G) as (b & Eb & T).
    pose proof (pword_len (Z.to_nat n) p) as L. replace (Z.of_nat (Z.to_nat n)) with n in L by lia. specialize (L P).
    assert (exists N, (2 * N = n * (n - 1))%Z) as (N & EN). { destruct (Z.Even_or_Odd n) as [(k & ->)|(k & ->)]; [exists (k * (2 * k - 1))%Z|exists ((2 * k + 1) * k)%Z]; ring. }
    rewrite <- EN, mult_IZR in *. change (IZR 2) with 2 in *.
    destruct (tracks_from b (pword (Z.to_nat n) p) N T) as (A & M & E1 & E2 & K); [intros; eapply pword_in; eauto|lia|auto|].
    exists A, M. unfold f_matrix, irr_matrix, irr_apply_perm. rewrite Eb, En. cbn [bind]. rewrite !act_perm_word by (auto; lia). split; [exact E1|]. split; [exact E2|].
    pose proof K as ((W1 & W2 & W3) & M0 & M1 & _). split; [auto|]. split; [auto|]. split; [auto|]. split; [auto|]. intros i j Hi Hj.
    destruct (tracks_entry F fval o _ A M i j K Hi Hj) as (x & Ex & D & _). exists (fat F A i j), x. split; [|auto]. eapply fget_ok; eauto. split; eauto.
  Qed.

  (* the error of a character *)
  Definition cerr : R := 2 * IZR (n - 1) * g + u * IZR (io_d o) + e.

  Lemma f_character_ok b mu : ftable F n o b -> ppos mu -> zsum mu = n -> 2 * IZR (n - 1) * g <= 1 -> 2 * IZR (io_d o) * u <= 1 -> 10 * IZR (io_d o) <= B ->
    exists a x r, f_character_with F o b mu = Ret a /\ fval a = Some x /\ irr_character o mu = Ret r /\ Rabs (x - r) <= 2 * IZR (io_d o) * cerr.
  Proof.
    intros T P S H1 H2 H3. pose proof (proj1 (proj2 G)) as N1. assert (mu <> []) as Nm by (intros ->; cbn in S; lia).
    assert (1 <= zlen mu)%Z as Lm by (destruct mu; [congruence|rewrite zlen_cons; pose proof (zlen_nonneg mu); lia]).
    pose proof (cw_len mu 1 P) as LW. pose proof (gamma_nonneg u v e Hu Hv He o) as G0. fold g in G0.
    assert (forall j, In j (cw 1 mu) -> (1 <= j < n)%Z) as W by (intros j Hj; apply (in_cw n mu 1 j); auto; lia).
    destruct (tracks_from b (cw 1 mu) (n - 1) T W ltac:(lia) H1) as (A & M & E1 & E2 & K). set (dl := 2 * IZR (n - 1) * g) in *.
    assert (0 <= dl) as D0. { unfold dl. apply Rmult_le_pos; [|auto]. apply Rmult_le_pos; [lra|]. apply IZR_le. lia. }
    pose proof (dpos0 o) as Dz. pose proof (IZR_le _ _ Dz) as Dp. assert (0 <= cerr) as C0. { unfold cerr. fold dl. assert (0 <= u * IZR (io_d o)) by (apply Rmult_le_pos; lra). lra. }
    pose proof K as (KW & M0 & M1 & _).
    destruct (zfor_inv (fun i t => exists x, fval t = Some x /\ Rabs (x - lsum (zrange 0 i) (fun k => m_at M k k)) <= 2 * IZR i * cerr /\ Rabs (lsum (zrange 0 i) (fun k => m_at M k k)) <= IZR i)
      0 (io_d o) (fun i t => x <- fget F A i i ;; Ret (fadd F t x)) (fz F 0)) as (a & Ea & x & Vx & Dx & _).
    { auto. }
    { exists 0. split; [apply (r_fz_exact _ _ _ _ _ _ _ Hr 0); lia|]. change (lsum (zrange 0 0) (fun k => m_at M k k)) with 0. rewrite Rminus_0_r, Rabs_R0. lra. }
    { intros i t Hi (x & Vx & Dx & Bx). rewrite (fget_ok F (io_d o) (io_d o)) by auto. cbn [bind]. eexists. split; [reflexivity|].
      destruct (tracks_entry F fval o _ A M i i K ltac:(lia) ltac:(lia)) as (y & Vy & Dy & By).
      rewrite zrange_snoc by lia. rewrite lsum_app. replace (lsum [i] (fun k => m_at M k k)) with (m_at M i i) by (unfold lsum; cbn; ring).
      set (s := lsum (zrange 0 i) (fun k => m_at M k k)) in *. set (m := m_at M i i) in *.
      assert (0 <= IZR i <= IZR (io_d o) - 1) as Ri. { split; [apply IZR_le; lia|]. rewrite <- minus_IZR. apply IZR_le. lia. }
      rewrite plus_IZR. assert (Rabs (s + m) <= IZR i + 1) as Bs. { eapply Rle_trans; [apply Rabs_triang|]. lra. }
      assert (Rabs (x + y - (s + m)) <= 2 * IZR i * cerr + dl) as Dxy. { replace (x + y - (s + m)) with ((x - s) + (y - m)) by ring. eapply Rle_trans; [apply Rabs_triang|]. lra. }
      assert (dl <= cerr) as DC. { unfold cerr. fold dl. assert (0 <= u * IZR (io_d o)) by (apply Rmult_le_pos; lra). lra. }
      assert (Rabs (x + y) <= IZR (io_d o) + (2 * IZR i * cerr + dl)) as Bxy. { replace (x + y) with ((x + y - (s + m)) + (s + m)) by ring. eapply Rle_trans; [apply Rabs_triang|]. lra. }
      assert (cerr <= 2) as C2. { unfold cerr. fold dl. assert (u * IZR (io_d o) <= / 2) by lra. lra. }
      assert (2 * IZR i * cerr <= 4 * IZR (io_d o) - 4) as Q1. { assert (2 * IZR i * cerr <= 2 * IZR i * 2) by (apply Rmult_le_compat_l; lra). lra. }
      destruct (r_fadd _ _ _ _ _ _ _ Hr t (fat F A i i) x y Vx Vy) as (z & Vz & Cz); [lra|].
      exists z. split; [auto|]. split; [|exact Bs]. unfold close in Cz.
      assert (u * Rabs (x + y) <= u * (IZR (io_d o) + (2 * IZR i * cerr + dl))) as Q2 by (apply Rmult_le_compat_l; lra).
      assert (u * (2 * IZR i * cerr + dl) <= cerr) as Q3.
      { assert (u * (2 * IZR i * cerr + dl) <= u * ((2 * IZR (io_d o)) * cerr)). { apply Rmult_le_compat_l; [lra|]. assert (2 * IZR i * cerr <= (2 * IZR (io_d o) - 2) * cerr) by (apply Rmult_le_compat_r; lra). lra. }
        assert (u * ((2 * IZR (io_d o)) * cerr) = (2 * IZR (io_d o) * u) * cerr) by ring. assert ((2 * IZR (io_d o) * u) * cerr <= 1 * cerr) by (apply Rmult_le_compat_r; lra). lra. }
      replace (z - (s + m)) with ((z - (x + y)) + (x + y - (s + m))) by ring. eapply Rle_trans; [apply Rabs_triang|].
      assert (2 * (IZR i + 1) * cerr = 2 * IZR i * cerr + cerr + (dl + u * IZR (io_d o) + e)) as -> by (unfold cerr; fold dl; ring). lra. }
    exists a, x, (lsum (zrange 0 (io_d o)) (fun k => m_at M k k)). split; [|split; [exact Vx|split; [|exact Dx]]].
    - unfold f_character_with. pose proof (mu_loop (f_apply F o b) mu mu [] (fident F (io_d o)) eq_refl) as E. change (zlen (@nil Z)) with 0%Z in E. change (1 + zsum [])%Z with 1%Z in E. rewrite E, E1. cbn [bind fst]. exact Ea.
    - unfold irr_character. pose proof (mu_loop (irr_apply o) mu mu [] (mident (io_d o)) eq_refl) as E. change (zlen (@nil Z)) with 0%Z in E. change (1 + zsum [])%Z with 1%Z in E. rewrite E, E2. cbn [bind fst].
      destruct (zfor_inv (fun i t => t = lsum (zrange 0 i) (fun k => m_at M k k)) 0 (io_d o) (fun i t => x <- mget M i i ;; Ret (t + x)) 0) as (y & Ey & Ky).
      + auto.
      + reflexivity.
      + intros i t Hi ->. rewrite mget_ok by lia. cbn [bind]. eexists. split; [reflexivity|]. rewrite zrange_snoc by lia. rewrite lsum_app. unfold lsum at 3. cbn [map fold_right]. ring.
      + rewrite Ey, Ky. reflexivity.
  Qed.
End Values.
