(* Characters: traces on conjugacy classes. *)
From Coq Require Import ZArith List Bool Lia ZifyBool ZifyNat Reals Lra.
From Verif Require Import Model_Base Model_Perm Model_Part Model_Comb Model_Tab Model_Irrep.
From Verif Require Import Spec_Perm Spec_Part Spec_Tab Spec_Rep.
From Verif Require Import Proof_Base Proof_Perm Proof_PermProps Proof_Part Proof_Tab Proof_TabProps Proof_Cycles Proof_Cox Proof_Yor Proof_Sum Proof_Irrep Proof_Rep Proof_Mat Proof_IrrepProps Proof_Block Proof_JM.
Import ListNotations.
Open Scope Z_scope.

Lemma ppos_inv m mu : ppos (m :: mu) -> 1 <= m /\ ppos mu.
Proof. intros H. split; [apply H; left; auto|]. intros x Hx. apply H. right; auto. Qed.
Lemma ppos_cons m mu : 1 <= m -> ppos mu -> ppos (m :: mu).
Proof. intros H K x [<-|Hx]; auto. Qed.
Lemma ppos_app a b : ppos (a ++ b) -> ppos a /\ ppos b.
Proof. intros H. split; intros x Hx; apply H; apply in_or_app; auto. Qed.
Lemma zsum_ppos l : ppos l -> 0 <= zsum l.
Proof. intros H. pose proof (ppos_zsum_len l H). pose proof (zlen_nonneg l). lia. Qed.

(* the word of the consecutive cycles of lengths mu, starting at a *)
Fixpoint cw (a : Z) (mu : list Z) : list Z :=
  match mu with [] => [] | m :: mu' => wcyc a (a + m - 1) ++ cw (a + m) mu' end.
(* the image of v *)
Fixpoint bcyc (a : Z) (mu : list Z) (v : Z) : Z :=
  match mu with [] => v | m :: mu' => bcyc (a + m) mu' (cfun a (a + m - 1) v) end.

Lemma in_cw n mu : forall a j, 1 <= a -> ppos mu -> a + zsum mu <= n + 1 -> In j (cw a mu) -> 1 <= j < n.
Proof.
  induction mu as [|m mu IH]; intros a j Ha P Hn H; [destruct H|]. cbn [cw] in H. pose proof (ppos_inv _ _ P) as (P1 & P2). rewrite zsum_cons in Hn.
  pose proof (zsum_ppos mu P2) as Z0.
  apply in_app_iff in H as [H|H]; [|apply (IH (a + m) j); auto; lia].
  unfold wcyc in H. destruct (Z.ltb_spec a (a + m - 1)); [apply in_cyc in H|apply in_zrange in H]; lia.
Qed.

Lemma aw_cw_perm n mu : forall a q i, 1 <= a -> ppos mu -> a + zsum mu <= n + 1 -> is_perm n q -> 1 <= i <= n ->
  img (aw (pstep n) (cw a mu) q) i = bcyc a mu (img q i).
Proof.
  induction mu as [|m mu IH]; intros a q i Ha P Hn Q Hi; [reflexivity|]. cbn [cw bcyc]. pose proof (ppos_inv _ _ P) as (P1 & P2). rewrite zsum_cons in Hn.
  pose proof (zsum_ppos mu P2) as Z0. rewrite aw_app.
  assert (forall j, In j (wcyc a (a + m - 1)) -> 1 <= j < n) as W.
  { intros j Hj. unfold wcyc in Hj. destruct (Z.ltb_spec a (a + m - 1)); [apply in_cyc in Hj|apply in_zrange in Hj]; lia. }
  rewrite IH; auto; [|lia|lia|apply (aw_ok eq (is_perm n) (pstep n) n); auto using cox_perm]. f_equal.
  unfold wcyc, cfun. destruct (Z.ltb_spec a (a + m - 1)).
  - rewrite img_cyc_word by (auto; lia). unfold cycf. zc.
  - assert (m = 1) by lia. subst m. replace (a + 1 - 1) with a by lia. rewrite zrange_nil by lia. unfold aw; cbn [fold_left]. zc.
Qed.

Lemma bcyc_low mu : forall a v, ppos mu -> v < a -> bcyc a mu v = v.
Proof.
  induction mu as [|m mu IH]; intros a v P Hv; [reflexivity|]. cbn [bcyc]. pose proof (ppos_inv _ _ P) as (P1 & P2).
  replace (cfun a (a + m - 1) v) with v by (unfold cfun; zc). apply IH; auto. lia.
Qed.

Lemma bcyc_cons a m mu v : ppos (m :: mu) -> a <= v ->
  bcyc a (m :: mu) v = if v <? a + m then (if v =? a + m - 1 then a else v + 1) else bcyc (a + m) mu v.
Proof.
  intros P Hv. cbn [bcyc]. pose proof (ppos_inv _ _ P) as (P1 & P2). destruct (Z.ltb_spec v (a + m)).
  - rewrite bcyc_low; auto; unfold cfun; zc.
  - f_equal. unfold cfun. zc.
Qed.

Definition zl (c : list Z) : Z := Z.of_nat (length c).

(* the one-line permutation concat cs carries the consecutive cycles to the cycles cs *)
Lemma cycles_conj p cs : forall pre a i,
  (forall c k, In c cs -> (k < length c)%nat -> img p (nth k c 0) = nth (if Nat.eq_dec (S k) (length c) then 0%nat else S k) c 0) ->
  ppos (map zl cs) -> a = zlen pre + 1 -> a <= i <= a + zsum (map zl cs) - 1 ->
  img (pre ++ concat cs) (bcyc a (map zl cs) i) = img p (img (pre ++ concat cs) i).
Proof.
  induction cs as [|c cs IH]; intros pre a i H P Ea Hi; [cbn in Hi; lia|].
  change (map zl (c :: cs)) with (zl c :: map zl cs) in *. rewrite zsum_cons in Hi. rewrite bcyc_cons by (auto; lia). pose proof (ppos_inv _ _ P) as (P1 & P2).
  destruct (Z.ltb_spec i (a + zl c)) as [L|L].
  - set (k := Z.to_nat (i - a)). assert ((k < length c)%nat) as Hk by (unfold k, zl in *; lia).
    assert (forall j, 0 <= j < zl c -> img (pre ++ concat (c :: cs)) (a + j) = nth (Z.to_nat j) c 0) as V.
    { intros j Hj. unfold img. cbn [concat]. rewrite app_nth2 by (unfold zlen in *; lia). rewrite app_nth1 by (unfold zlen, zl in *; lia). f_equal. unfold zlen in *. lia. }
    replace (img (pre ++ concat (c :: cs)) i) with (nth k c 0) by (unfold k; rewrite <- V by lia; f_equal; lia).
    rewrite (H c k (or_introl eq_refl) Hk). destruct (Nat.eq_dec (S k) (length c)) as [Q|Q].
    + destruct (Z.eqb_spec i (a + zl c - 1)); [|unfold k, zl in *; lia]. specialize (V 0 ltac:(unfold zl; lia)). rewrite Z.add_0_r in V. exact V.
    + destruct (Z.eqb_spec i (a + zl c - 1)); [unfold k, zl in *; lia|]. replace (i + 1) with (a + (i + 1 - a)) by lia. rewrite V by (unfold k, zl in *; lia). f_equal. unfold k; lia.
  - cbn [concat]. rewrite app_assoc. apply IH; auto.
    + intros; apply H; auto; right; auto.
    + rewrite zlen_app. unfold zl, zlen in *. lia.
    + lia.
Qed.

Lemma zlen_concat_zl cs : zlen (concat cs) = zsum (map zl cs).
Proof. induction cs as [|c cs IH]; [reflexivity|]. cbn [concat map]. rewrite zlen_app, zsum_cons, IH. reflexivity. Qed.

Lemma trace_ext d A B : agree d d A B -> trace d A = trace d B.
Proof. intros H. apply rsum_ext. intros i Hi. apply H; auto. Qed.

Lemma trace_mprod d A B : trace d (mprod d A B) = trace d (mprod d B A).
Proof.
  unfold trace, mprod. rewrite !rsum_lsum. rewrite (lsum_ext _ _ (fun i => lsum (zrange 0 d) (fun k => (A i k * B k i)%R))) by (intros; apply rsum_lsum).
  rewrite lsum_swap. apply lsum_ext. intros k _. rewrite rsum_lsum. apply lsum_ext. intros i _. ring.
Qed.

Section Char.
  Variables (n : Z) (l : list Z) (o : irr).
  Hypothesis G : good n l o.

  Lemma trace_conj p q c : is_perm n p -> is_perm n q -> is_perm n c -> pmul p q = pmul q c -> trace (io_d o) (rho n o p) = trace (io_d o) (rho n o c).
  Proof.
    intros P Q C E. pose proof (is_perm_pinv n q Q) as Qi.
    (* c = q^-1 p q *)
    assert (c = pmul (pinv q) (pmul p q)) as Ec.
    { rewrite E. rewrite <- (pmul_assoc n) by auto. rewrite (pmul_pinv_l n) by auto. symmetry. apply (pmul_pid_l n); auto. }
    rewrite Ec. rewrite (trace_ext (io_d o) (rho n o (pmul (pinv q) (pmul p q))) (mprod (io_d o) (rho n o (pinv q)) (rho n o (pmul p q)))).
    - rewrite trace_mprod. rewrite <- (trace_ext (io_d o) (rho n o (pmul (pmul p q) (pinv q))) (mprod (io_d o) (rho n o (pmul p q)) (rho n o (pinv q)))).
      + rewrite (pmul_assoc n) by auto. rewrite (pmul_pinv_r n) by auto. rewrite (pmul_pid_r n) by auto. reflexivity.
      + intros i j Hi Hj. apply (rho_mul n l o G); auto. apply (is_perm_pmul n); auto.
    - intros i j Hi Hj. apply (rho_mul n l o G); auto. apply (is_perm_pmul n); auto.
  Qed.

  Lemma character_ok mu : ppos mu -> zsum mu = n -> exists x, irr_character o mu = Ret x /\ x = trace (io_d o) (rho n o (pw n (cw 1 mu))).
  Proof.
    intros P S. pose proof (proj1 (proj2 G)) as Hn. pose proof (io_d_nonneg o) as Hd. unfold irr_character.
    assert (forall suf pre A, mu = pre ++ suf -> m_n0 A = io_d o -> m_n1 A = io_d o ->
      exists A', zfor (zlen pre) (zlen mu) (fun i st => let '(R, a) := st in m <- rd mu i ;; R <- act_cycle (irr_apply o) (mkCyc a (a + m - 1)) R ;; Ret (R, a + m)) (A, 1 + zsum pre) = Ret (A', 1 + zsum mu) /\
        coltr o (incols 0 (io_d o)) (cw (1 + zsum pre) suf) A A') as K.
    { induction suf as [|m suf IH]; intros pre A Emu N0 N1.
      - rewrite app_nil_r in Emu. subst pre. rewrite zfor_nil by lia. exists A. split; auto. apply (coltr_nil n l o G).
      - pose proof (zlen_nonneg pre). pose proof (zlen_nonneg suf).
        assert (zlen mu = zlen pre + 1 + zlen suf) as Lmu by (rewrite Emu, zlen_app, zlen_cons; lia).
        rewrite zfor_cons by lia. rewrite (rd_ok _ _ 0) by lia.
        assert (znth mu (zlen pre) 0 = m) as Em by (rewrite Emu, znth_app by lia; rewrite Z.ltb_irrefl, Z.sub_diag; reflexivity).
        rewrite Em. cbn [bind]. assert (ppos (pre ++ m :: suf)) as P' by (rewrite <- Emu; auto). apply ppos_app in P' as (Pp & Ps). pose proof (ppos_inv _ _ Ps) as (P1 & P2).
        pose proof (zsum_ppos pre Pp). pose proof (zsum_ppos suf P2). assert (zsum mu = zsum pre + (m + zsum suf)) as Sm by (rewrite Emu, zsum_app, zsum_cons; lia).
        rewrite act_cycle_word.
        assert (forall j, In j (wcyc (1 + zsum pre) (1 + zsum pre + m - 1)) -> 1 <= j < n) as W.
        { intros j Hj. unfold wcyc in Hj. destruct (Z.ltb_spec (1 + zsum pre) (1 + zsum pre + m - 1)); [apply in_cyc in Hj|apply in_zrange in Hj]; lia. }
        destruct (word_coltr n l o G (wcyc (1 + zsum pre) (1 + zsum pre + m - 1)) A W N0) as (A1 & E1 & K1); [lia|]. rewrite E1. cbn [bind]. rewrite N1 in K1.
        pose proof K1 as (M0 & M1 & _).
        destruct (IH (pre ++ [m]) A1) as (A' & E' & K'); [rewrite <- app_assoc; auto|congruence|congruence|].
        rewrite zlen_app, zsum_app in E'. change (zlen [m]) with 1 in E'. replace (zsum [m]) with m in E' by (cbn; lia).
        replace (1 + zsum pre + m) with (1 + (zsum pre + m)) by lia. exists A'. split; [exact E'|]. cbn [cw].
        apply (coltr_comp n l o G _ _ _ A A1 A'); auto.
        + intros j Hj. apply (in_cw n suf (1 + zsum pre + m) j); auto; lia.
        + rewrite zsum_app in K'. replace (zsum [m]) with m in K' by (cbn; lia). replace (1 + zsum pre + m) with (1 + (zsum pre + m)) by lia. exact K'. }
    destruct (K mu [] (mident (io_d o)) eq_refl eq_refl eq_refl) as (A & E & KA). change (zlen (@nil Z)) with 0 in E. change (1 + zsum []) with 1 in E, KA.
    rewrite E. cbn [bind fst]. pose proof KA as (M0 & M1 & _). change (m_n0 (mident (io_d o))) with (io_d o) in M0. change (m_n1 (mident (io_d o))) with (io_d o) in M1.
    assert (forall j, In j (cw 1 mu) -> 1 <= j < n) as W by (intros j Hj; apply (in_cw n mu 1 j); auto; lia).
    destruct (zfor_inv (fun i t => t = lsum (zrange 0 i) (fun k => m_at A k k)) 0 (io_d o) (fun i t => x <- mget A i i ;; Ret (t + x)%R) 0%R) as (x & Ex & Kx).
    - auto.
    - reflexivity.
    - intros i t Hi ->. rewrite mget_ok by lia. cbn [bind]. eexists. split; [reflexivity|]. rewrite zrange_snoc by lia. rewrite lsum_app. unfold lsum at 3. cbn [map fold_right]. ring.
    - exists x. split; auto. rewrite Kx. unfold trace. rewrite rsum_lsum. apply lsum_ext. intros i Hi. apply in_zrange in Hi. apply (coltr_entry n l o G); auto.
  Qed.
End Char.

Lemma cycle_type_conj n p mu : cycle_type n p mu -> ppos mu -> exists q, is_perm n q /\ zsum mu = n /\ pmul p q = pmul q (pw n (cw 1 mu)).
Proof.
  intros (P & cs & (Q & H) & E) Pm. exists (concat cs). pose proof (is_perm_len _ _ Q) as Lq. pose proof (is_perm_nonneg _ _ P) as Hn.
  assert (map zl cs = mu) as Em by exact E. assert (zsum mu = n) as Sm by (rewrite <- Em, <- zlen_concat_zl; auto).
  assert (is_perm n (pw n (cw 1 mu))) as C by (apply is_perm_pw; auto; intros j Hj; apply (in_cw n mu 1 j); auto; lia).
  split; auto. split; auto. apply (perm_ext n); [apply is_perm_len; apply (is_perm_pmul n); auto|apply is_perm_len; apply (is_perm_pmul n); auto|].
  intros i Hi. rewrite !img_pmul by (rewrite ?Lq, ?(is_perm_len _ _ C); lia).
  unfold pw. rewrite (aw_cw_perm n mu 1) by (auto; try lia; apply is_perm_pid; lia). rewrite img_pid by lia.
  pose proof (cycles_conj p cs [] 1 i H) as K. rewrite Em in K. symmetry. apply K; auto. lia.
Qed.

Lemma character_is_trace n l o p mu : is_part n l -> 1 <= n -> irr_new l = Ret o -> is_part n mu -> cycle_type n p mu ->
  exists M x, irr_matrix o p = Ret M /\ irr_character o mu = Ret x /\ x = trace (io_d o) (m_at M).
Proof.
  intros Pl Hn E Pm T. pose proof (irr_new_good n l o Pl Hn E) as G. pose proof (is_part_ppos _ _ Pm) as Pp. pose proof (is_part_sum _ _ Pm) as Sm.
  destruct (cycle_type_conj n p mu T Pp) as (q & Q & _ & Ec). destruct (character_ok n l o G mu Pp Sm) as (x & Ex & Vx).
  assert (is_perm n p) as P by apply T. destruct (matrix_ok n l o G p P) as (M & EM & _ & _ & V). exists M, x. split; auto. split; auto.
  rewrite Vx. rewrite (trace_ext _ _ _ V). symmetry. apply (trace_conj n l o G p q); auto.
  apply is_perm_pw; [lia|]. intros j Hj. apply (in_cw n mu 1 j); auto; lia.
Qed.

Lemma conjugates_same_trace n l o p q qi r : is_part n l -> 1 <= n -> irr_new l = Ret o -> is_perm n p -> is_perm n q ->
  is_inverse n q qi -> (exists s, is_mult n p qi s /\ is_mult n q s r) ->
  exists M N, irr_matrix o p = Ret M /\ irr_matrix o r = Ret N /\ trace (io_d o) (m_at M) = trace (io_d o) (m_at N).
Proof.
  intros Pl Hn E P Q I (s & Hs & Hr). pose proof (irr_new_good n l o Pl Hn E) as G. pose proof (is_inverse_pinv n q qi Q I) as ->. pose proof (is_perm_pinv n q Q) as Qi.
  pose proof (is_mult_pmul n p (pinv q) s P Qi Hs) as ->. assert (is_perm n (pmul p (pinv q))) as Ps by (apply (is_perm_pmul n); auto).
  pose proof (is_mult_pmul n q _ r Q Ps Hr) as ->. assert (is_perm n (pmul q (pmul p (pinv q)))) as Pr by (apply (is_perm_pmul n); auto).
  destruct (matrix_ok n l o G p P) as (M & EM & _ & _ & V). destruct (matrix_ok n l o G _ Pr) as (N & EN & _ & _ & VN). exists M, N. split; auto. split; auto.
  rewrite (trace_ext _ _ _ V), (trace_ext _ _ _ VN). symmetry. apply (trace_conj n l o G _ q); auto.
  rewrite (pmul_assoc n) by auto. f_equal. rewrite (pmul_assoc n) by auto. rewrite (pmul_pinv_l n) by auto. apply (pmul_pid_r n); auto.
Qed.

Lemma cw_ones k : forall a, cw a (repeat 1 k) = [].
Proof.
  induction k as [|k IH]; intros a; [reflexivity|]. cbn [repeat cw]. rewrite IH, app_nil_r. unfold wcyc. replace (a + 1 - 1) with a by lia.
  rewrite Z.ltb_irrefl. apply zrange_nil. lia.
Qed.

Lemma zsum_repeat1 k : zsum (repeat 1 k) = Z.of_nat k.
Proof. induction k as [|k IH]; [reflexivity|]. cbn [repeat]. rewrite zsum_cons, IH. lia. Qed.

Lemma character_at_identity n l o : is_part n l -> 1 <= n -> irr_new l = Ret o -> irr_character o (repeat 1 (Z.to_nat n)) = Ret (IZR (io_d o)).
Proof.
  intros Pl Hn E. pose proof (irr_new_good n l o Pl Hn E) as G.
  destruct (character_ok n l o G (repeat 1 (Z.to_nat n))) as (x & Ex & Vx).
  - intros x Hx. apply repeat_spec in Hx. lia.
  - rewrite zsum_repeat1. lia.
  - rewrite Ex. f_equal. rewrite Vx, cw_ones. unfold pw, aw; cbn [fold_left]. unfold trace.
    rewrite (rsum_ext _ _ (fun _ => 1%R)).
    + rewrite rsum_lsum, lsum_const, zlen_zrange. pose proof (io_d_nonneg o). replace (Z.max 0 (io_d o - 0)) with (io_d o) by lia. ring.
    + intros i Hi. rewrite (rho_id n l o G) by auto. unfold delta. destruct (Z.eq_dec i i); [auto|contradiction].
Qed.
