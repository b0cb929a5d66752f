(* Rounded arithmetic: the error of one step of the representation. *)
From Coq Require Import ZArith List Bool Lia Reals Lra.
From Verif Require Import Model_Base Model_Perm Model_Part Model_Comb Model_Tab Model_Irrep Model_Float.
From Verif Require Import Spec_Perm Spec_Part Spec_Tab Spec_Rep Spec_Float.
From Verif Require Import Proof_Base Proof_Perm Proof_Part Proof_Tab Proof_TabProps Proof_Yor Proof_Irrep Proof_Float1.
Import ListNotations.
Open Scope R_scope.

Lemma Rabs_le_inv x y : Rabs x <= y -> - y <= x <= y.
Proof. intros H. unfold Rabs in H. destruct (Rcase_abs x); lra. Qed.

Lemma close_abs u e r x : close u e r x -> Rabs x <= (1 + u) * Rabs r + e.
Proof. unfold close. intros H. pose proof (Rabs_triang (x - r) r) as T. replace (x - r + r) with x in T by ring. lra. Qed.

(* from an error bound on the exact operand to one on the rounded result *)
Lemma close_chain u e r x r0 d : 0 <= u -> close u e r x -> Rabs (r - r0) <= d -> Rabs (x - r0) <= (1 + u) * d + u * Rabs r0 + e.
Proof.
  unfold close. intros Hu H D. pose proof (Rabs_triang (x - r) (r - r0)) as T. replace (x - r + (r - r0)) with (x - r0) in T by ring.
  pose proof (Rabs_triang (r - r0) r0) as T2. replace (r - r0 + r0) with r in T2 by ring. assert (u * Rabs r <= u * (d + Rabs r0)) by (apply Rmult_le_compat_l; lra). lra.
Qed.

Lemma abs_mult_le a b x y : Rabs a <= x -> Rabs b <= y -> Rabs (a * b) <= x * y.
Proof. intros. rewrite Rabs_mult. apply Rmult_le_compat; auto using Rabs_pos. Qed.

Lemma abs_sum_le a b x y : Rabs a <= x -> Rabs b <= y -> Rabs (a + b) <= x + y.
Proof. intros. pose proof (Rabs_triang a b). lra. Qed.

Lemma Dd_bound z : (z <> 0)%Z -> Rabs (Dd z) <= 1.
Proof.
  intros Hz. unfold Dd. rewrite Rabs_inv. rewrite <- abs_IZR. assert (1 <= IZR (Z.abs z)) by (apply IZR_le; lia).
  apply Rmult_le_reg_l with (IZR (Z.abs z)); [lra|]. rewrite Rinv_r by lra. lra.
Qed.

Lemma cell_bounds n l r c : is_part n l -> cell l r c -> (0 <= r < n /\ 0 <= c < n)%Z.
Proof.
  intros (Hp & _ & Hs) (Hr & Hc). assert (forall m : list Z, (forall x, In x m -> 1 <= x)%Z -> (Z.of_nat (length m) <= zsum m)%Z /\ forall k, (nth k m 0 <= zsum m)%Z) as K.
  { induction m as [|x m IH]; intros H; [split; [cbn; lia|intros [|k]; cbn; lia]|]. destruct (IH ltac:(intros; apply H; right; auto)) as (A & C).
    pose proof (H x ltac:(left; auto)). change (zsum (x :: m)) with (x + zsum m)%Z. cbn [length]. split; [lia|]. intros [|k]; cbn [nth]; [lia|]. specialize (C k). lia. }
  destruct (K l Hp) as (A & C). unfold row in Hc. specialize (C (Z.to_nat r)). lia.
Qed.

Section Step.
  Variables (F : arith) (fval : fl F -> option R) (dval : db F -> option R) (u v e B : R).
  Hypothesis Hr : rounded F fval dval u v e B.
  Hypothesis Hu : 0 <= u <= / 1000.
  Hypothesis Hv : 0 <= v <= / 1000.
  Hypothesis He : 0 <= e <= v / 1000.
  Hypothesis HB : 1000 <= B.

  Definition alpha : R := u + 10 * v.
  Definition beta : R := 6 * e.

  Lemma fc1_ok z : (z <> 0)%Z -> (Z.abs z <= 2 ^ 26)%Z -> exists c, dval (fc1 F z) = Some c /\ Rabs (c - Dd z) <= 4 * v.
  Proof.
    intros Hz Hb. unfold fc1. pose proof (Dd_bound z Hz) as D1. destruct (adj z) eqn:A.
    - exists (IZR z). split; [apply (r_dz_exact _ _ _ _ _ _ _ Hr); lia|]. rewrite <- (Dd_adj z A). rewrite Rminus_diag_eq, Rabs_R0 by auto. lra.
    - assert (1 / IZR z = Dd z) as E by (unfold Dd; field; apply not_0_IZR; auto).
      destruct (r_ddiv _ _ _ _ _ _ _ Hr (dz F 1) (dz F z) 1 (IZR z)) as (x & E2 & C).
      + apply (r_dz_exact _ _ _ _ _ _ _ Hr). lia.
      + apply (r_dz_exact _ _ _ _ _ _ _ Hr). lia.
      + apply not_0_IZR; auto.
      + rewrite E. lra.
      + rewrite E in C. exists x. split; auto. unfold close in C. assert (v * Rabs (Dd z) <= v * 1) by (apply Rmult_le_compat_l; lra). lra.
  Qed.

  Lemma fc2_ok z : (z <> 0)%Z -> (Z.abs z <= 2 ^ 26)%Z -> exists c, dval (fc2 F z) = Some c /\ Rabs (c - Sd z) <= 4 * v.
  Proof.
    intros Hz Hb. unfold fc2. destruct (adj z) eqn:A.
    - exists 0. split; [apply (r_dz_exact _ _ _ _ _ _ _ Hr 0); lia|]. rewrite Sd_1 by (unfold adj in A; lia). rewrite Rminus_0_r, Rabs_R0. lra.
    - assert (2 <= Z.abs z)%Z as H2 by (unfold adj in A; lia).
      set (q := 1 / IZR (z * z)). assert (4 <= IZR (z * z)) as H4 by (apply IZR_le; nia).
      assert (0 < q <= / 4) as Hq.
      { unfold q, Rdiv. rewrite Rmult_1_l. split; [apply Rinv_0_lt_compat; lra|]. apply Rinv_le_contravar; lra. }
      destruct (r_ddiv _ _ _ _ _ _ _ Hr (dz F 1) (dz F (z * z)) 1 (IZR (z * z))) as (q' & E1 & C1).
      + apply (r_dz_exact _ _ _ _ _ _ _ Hr). lia.
      + apply (r_dz_exact _ _ _ _ _ _ _ Hr). nia.
      + lra.
      + fold q. rewrite Rabs_pos_eq by lra. lra.
      + fold q in C1. unfold close in C1. rewrite (Rabs_pos_eq q) in C1 by lra.
        assert (v * q <= v * / 4) as V4 by (apply Rmult_le_compat_l; lra).
        assert (Rabs (q' - q) <= v / 2) as D1 by lra.
        destruct (r_dsub _ _ _ _ _ _ _ Hr (dz F 1) (ddiv F (dz F 1) (dz F (z * z))) 1 q') as (w' & E2 & C2); auto.
        * apply (r_dz_exact _ _ _ _ _ _ _ Hr). lia.
        * apply Rabs_le. apply Rabs_le_inv in D1. lra.
        * assert (Rabs ((1 - q') - (1 - q)) <= v / 2) as D2 by (replace (1 - q' - (1 - q)) with (- (q' - q)) by ring; rewrite Rabs_Ropp; auto).
          pose proof (close_chain v e (1 - q') w' (1 - q) (v / 2) ltac:(lra) C2 D2) as D3. rewrite (Rabs_pos_eq (1 - q)) in D3 by lra.
          assert (v * (1 - q) <= v * 1) by (apply Rmult_le_compat_l; lra). assert ((1 + v) * (v / 2) <= 2 * (v / 2)) by (apply Rmult_le_compat_r; lra).
          assert (Rabs (w' - (1 - q)) <= 9 / 4 * v) as D4 by lra. clear D3.
          pose proof (Rabs_le_inv _ _ D4) as D5. assert (7 / 10 <= w' <= 2) as W by lra.
          assert (Sd z = sqrt (1 - q)) as ES by (unfold q; rewrite Sd_div; reflexivity).
          destruct (r_dsqrt _ _ _ _ _ _ _ Hr _ w' E2 ltac:(lra)) as (c & E3 & C3).
          -- rewrite Rabs_pos_eq by apply sqrt_pos. apply Rle_trans with 2; [|lra]. rewrite <- (sqrt_Rsqr 2) by lra. apply sqrt_le_1_alt. unfold Rsqr. lra.
          -- exists c. split; [exact E3|]. rewrite ES.
             assert (8 / 10 <= sqrt (1 - q) <= 1) as S1.
             { split; [rewrite <- (sqrt_Rsqr (8 / 10)) by lra; apply sqrt_le_1_alt; unfold Rsqr; lra|rewrite <- sqrt_1 at 2; apply sqrt_le_1_alt; lra]. }
             assert (8 / 10 <= sqrt w') as S2 by (rewrite <- (sqrt_Rsqr (8 / 10)) by lra; apply sqrt_le_1_alt; unfold Rsqr; lra).
             assert (Rabs (sqrt w' - sqrt (1 - q)) <= 3 / 2 * v) as D6.
             { assert ((sqrt w' - sqrt (1 - q)) * (sqrt w' + sqrt (1 - q)) = w' - (1 - q)) as Q.
               { transitivity (sqrt w' * sqrt w' - sqrt (1 - q) * sqrt (1 - q)); [ring|]. rewrite !sqrt_sqrt by lra. reflexivity. }
               rewrite <- Q in D4. rewrite Rabs_mult, (Rabs_pos_eq (sqrt w' + sqrt (1 - q))) in D4 by lra.
               pose proof (Rabs_pos (sqrt w' - sqrt (1 - q))).
               assert (Rabs (sqrt w' - sqrt (1 - q)) * (16 / 10) <= Rabs (sqrt w' - sqrt (1 - q)) * (sqrt w' + sqrt (1 - q))) by (apply Rmult_le_compat_l; lra). lra. }
             pose proof (close_chain v e _ _ (sqrt (1 - q)) _ ltac:(lra) C3 D6) as D7. rewrite (Rabs_pos_eq (sqrt (1 - q))) in D7 by lra.
             assert (v * sqrt (1 - q) <= v * 1) by (apply Rmult_le_compat_l; lra). assert (v * v <= v * / 1000) by (apply Rmult_le_compat_l; lra). lra.
  Qed.

  Lemma term_ok c t D x : dval c = Some D -> fval t = Some x -> forall D0, Rabs (D - D0) <= 4 * v -> Rabs D0 <= 1 -> Rabs x <= 4 ->
    exists m, dval (dmul F c (fd F t)) = Some m /\ Rabs (m - D0 * x) <= 6 * v * Rabs x + e.
  Proof.
    intros EC ET D0 HD HD0 Hx. pose proof (Rabs_pos x).
    assert (Rabs (D * x - D0 * x) <= 4 * v * Rabs x) as K. { replace (D * x - D0 * x) with ((D - D0) * x) by ring. rewrite Rabs_mult. apply Rmult_le_compat_r; lra. }
    assert (Rabs (D0 * x) <= Rabs x) as K0. { rewrite Rabs_mult. assert (Rabs D0 * Rabs x <= 1 * Rabs x) by (apply Rmult_le_compat_r; lra). lra. }
    destruct (r_dmul _ _ _ _ _ _ _ Hr c (fd F t) D x EC) as (m & Em & Cm).
    - apply (r_fd _ _ _ _ _ _ _ Hr); auto.
    - pose proof (Rabs_triang (D * x - D0 * x) (D0 * x)) as T. replace (D * x - D0 * x + D0 * x) with (D * x) in T by ring.
      assert (4 * v * Rabs x <= 4 * v * 4) by (apply Rmult_le_compat_l; lra). lra.
    - exists m. split; auto. pose proof (close_chain v e _ _ _ _ ltac:(lra) Cm K) as Q.
      assert (v * Rabs (D0 * x) <= v * Rabs x) by (apply Rmult_le_compat_l; lra).
      assert (v * (4 * v * Rabs x) <= / 1000 * (4 * v * Rabs x)). { apply Rmult_le_compat_r; [|lra]. apply Rmult_le_pos; lra. }
      assert (0 <= v * Rabs x) by (apply Rmult_le_pos; lra). lra.
  Qed.

  (* a sum of two terms, stored as a float *)
  Lemma pair_ok a b ra rb x y E1 E2 : dval a = Some ra -> dval b = Some rb -> Rabs (ra - E1) <= 6 * v * x + e -> Rabs (rb - E2) <= 6 * v * y + e ->
    0 <= x <= 4 -> 0 <= y <= 4 -> Rabs E1 <= x -> Rabs E2 <= y ->
    exists r, fval (df F (dadd F a b)) = Some r /\ Rabs (r - (E1 + E2)) <= alpha * (x + y) + beta.
  Proof.
    intros Ea Eb Ka Kb Hx Hy H1 H2. set (S := x + y). pose proof (abs_sum_le _ _ _ _ H1 H2) as HE. fold S in HE.
    assert (Rabs (ra + rb - (E1 + E2)) <= 6 * v * S + 2 * e) as K. { replace (ra + rb - (E1 + E2)) with ((ra - E1) + (rb - E2)) by ring. eapply Rle_trans; [apply Rabs_triang|]. unfold S. lra. }
    assert (0 <= S <= 8) as HS by (unfold S; lra). assert (0 <= v * S) as VS by (apply Rmult_le_pos; lra). assert (v * S <= / 1000 * 8) as VS2 by (apply Rmult_le_compat; lra).
    destruct (r_dadd _ _ _ _ _ _ _ Hr a b ra rb Ea Eb) as (s & Es & Cs).
    - pose proof (Rabs_triang (ra + rb - (E1 + E2)) (E1 + E2)) as T. replace (ra + rb - (E1 + E2) + (E1 + E2)) with (ra + rb) in T by ring. lra.
    - pose proof (close_chain v e _ _ _ _ ltac:(lra) Cs K) as Q.
      assert (v * Rabs (E1 + E2) <= v * S) by (apply Rmult_le_compat_l; lra).
      assert (v * (6 * v * S + 2 * e) <= / 1000 * (6 * v * S + 2 * e)) by (apply Rmult_le_compat_r; lra).
      assert (Rabs (s - (E1 + E2)) <= 8 * v * S + 4 * e) as Q2 by lra.
      destruct (r_df _ _ _ _ _ _ _ Hr _ s Es) as (r & Er & Cr).
      + pose proof (Rabs_triang (s - (E1 + E2)) (E1 + E2)) as T. replace (s - (E1 + E2) + (E1 + E2)) with s in T by ring. lra.
      + exists r. split; auto. pose proof (close_chain u e _ _ _ _ ltac:(lra) Cr Q2) as Q3.
        assert (u * Rabs (E1 + E2) <= u * S) by (apply Rmult_le_compat_l; lra).
        assert (u * (8 * v * S + 4 * e) <= / 1000 * (8 * v * S + 4 * e)) by (apply Rmult_le_compat_r; lra). unfold alpha, beta. fold S. lra.
  Qed.

  Lemma Sd_bound z : (z <> 0)%Z -> Rabs (Sd z) <= 1.
  Proof.
    intros Hz. rewrite <- Sd_div. rewrite Rabs_pos_eq by apply sqrt_pos. rewrite <- sqrt_1 at 3. apply sqrt_le_1_alt.
    assert (0 < IZR (z * z)) by (apply IZR_lt; nia). assert (0 < 1 / IZR (z * z)) by (apply Rdiv_lt_0_compat; lra). lra.
  Qed.

  Lemma f_row1_ok z t x rt rx : (z <> 0)%Z -> (Z.abs z <= 2 ^ 26)%Z -> fval t = Some rt -> fval x = Some rx -> Rabs rt <= 4 -> Rabs rx <= 4 ->
    exists r, fval (f_row1 F (fc1 F z) (fc2 F z) t x) = Some r /\ Rabs (r - (Dd z * rt + Sd z * rx)) <= alpha * (Rabs rt + Rabs rx) + beta.
  Proof.
    intros Hz Hb Et Ex Ht Hx. destruct (fc1_ok z Hz Hb) as (c1 & E1 & K1). destruct (fc2_ok z Hz Hb) as (c2 & E2 & K2).
    destruct (term_ok _ t c1 rt E1 Et (Dd z) K1 (Dd_bound z Hz) Ht) as (m1 & M1 & N1). destruct (term_ok _ x c2 rx E2 Ex (Sd z) K2 (Sd_bound z Hz) Hx) as (m2 & M2 & N2).
    apply (pair_ok _ _ m1 m2); auto; try (split; [apply Rabs_pos|auto]).
    - rewrite Rabs_mult. pose proof (Dd_bound z Hz). pose proof (Rabs_pos rt). assert (Rabs (Dd z) * Rabs rt <= 1 * Rabs rt) by (apply Rmult_le_compat_r; lra). lra.
    - rewrite Rabs_mult. pose proof (Sd_bound z Hz). pose proof (Rabs_pos rx). assert (Rabs (Sd z) * Rabs rx <= 1 * Rabs rx) by (apply Rmult_le_compat_r; lra). lra.
  Qed.

  Lemma f_row2_ok z t x rt rx : (z <> 0)%Z -> (Z.abs z <= 2 ^ 26)%Z -> fval t = Some rt -> fval x = Some rx -> Rabs rt <= 4 -> Rabs rx <= 4 ->
    exists r, fval (f_row2 F (fc1 F z) (fc2 F z) t x) = Some r /\ Rabs (r - (- Dd z * rx + Sd z * rt)) <= alpha * (Rabs rx + Rabs rt) + beta.
  Proof.
    intros Hz Hb Et Ex Ht Hx. destruct (fc1_ok z Hz Hb) as (c1 & E1 & K1). destruct (fc2_ok z Hz Hb) as (c2 & E2 & K2).
    pose proof (r_dneg _ _ _ _ _ _ _ Hr _ _ E1) as E1'. assert (Rabs (- c1 - - Dd z) <= 4 * v) as K1' by (replace (- c1 - - Dd z) with (- (c1 - Dd z)) by ring; rewrite Rabs_Ropp; auto).
    assert (Rabs (- Dd z) <= 1) as DB by (rewrite Rabs_Ropp; apply Dd_bound; auto).
    destruct (term_ok _ x (- c1) rx E1' Ex (- Dd z) K1' DB Hx) as (m1 & M1 & N1). destruct (term_ok _ t c2 rt E2 Et (Sd z) K2 (Sd_bound z Hz) Ht) as (m2 & M2 & N2).
    apply (pair_ok _ _ m1 m2); auto; try (split; [apply Rabs_pos|auto]).
    - rewrite Rabs_mult. pose proof (Rabs_pos rx). assert (Rabs (- Dd z) * Rabs rx <= 1 * Rabs rx) by (apply Rmult_le_compat_r; lra). lra.
    - rewrite Rabs_mult. pose proof (Sd_bound z Hz). pose proof (Rabs_pos rt). assert (Rabs (Sd z) * Rabs rt <= 1 * Rabs rt) by (apply Rmult_le_compat_r; lra). lra.
  Qed.

  Lemma f_scale_ok z t rt : (z <> 0)%Z -> (Z.abs z <= 2 ^ 26)%Z -> fval t = Some rt -> Rabs rt <= 4 ->
    exists r, fval (f_scale F (fc1 F z) t) = Some r /\ Rabs (r - Dd z * rt) <= alpha * Rabs rt + beta.
  Proof.
    intros Hz Hb Et Ht. destruct (fc1_ok z Hz Hb) as (c1 & E1 & K1). destruct (term_ok _ t c1 rt E1 Et (Dd z) K1 (Dd_bound z Hz) Ht) as (m & M & N).
    pose proof (Rabs_pos rt) as P. assert (Rabs (Dd z * rt) <= Rabs rt) as K. { rewrite Rabs_mult. pose proof (Dd_bound z Hz). assert (Rabs (Dd z) * Rabs rt <= 1 * Rabs rt) by (apply Rmult_le_compat_r; lra). lra. }
    assert (0 <= v * Rabs rt) by (apply Rmult_le_pos; lra). assert (v * Rabs rt <= / 1000 * 4) by (apply Rmult_le_compat; lra).
    destruct (r_df _ _ _ _ _ _ _ Hr _ m M) as (r & Er & Cr).
    - pose proof (Rabs_triang (m - Dd z * rt) (Dd z * rt)) as T. replace (m - Dd z * rt + Dd z * rt) with m in T by ring. lra.
    - exists r. split; auto. pose proof (close_chain u e _ _ _ _ ltac:(lra) Cr N) as Q.
      assert (u * Rabs (Dd z * rt) <= u * Rabs rt) by (apply Rmult_le_compat_l; lra).
      assert (u * (6 * v * Rabs rt + e) <= / 1000 * (6 * v * Rabs rt + e)) by (apply Rmult_le_compat_r; lra). unfold alpha, beta. lra.
  Qed.

  (* one column *)
  Lemma fcol_ok n l o tau f g : good n l o -> (1 <= tau < n)%Z -> (n <= 2 ^ 25)%Z ->
    (forall i, (0 <= i < io_d o)%Z -> fval (f i) = Some (g i) /\ Rabs (g i) <= 4) ->
    forall i, (0 <= i < io_d o)%Z -> exists r, fval (fcol' F o tau f i) = Some r /\
      Rabs (r - col' o tau g i) <= alpha * (Rabs (g i) + Rabs (g (ptn o tau i))) + beta.
  Proof.
    intros G Ht Hn H i Hi. pose proof (proj1 G) as P. pose proof (tb_standard n l o i G Hi) as S. pose proof (del_nz n l (tb o i) tau P S Ht) as NZ.
    assert (forall j, (0 <= j < io_d o)%Z -> (Z.abs (del tau (tb o j)) <= 2 ^ 26)%Z) as DB.
    { intros j Hj. pose proof (tb_standard n l o j G Hj) as Sj. destruct (standard_pos n l (tb o j) tau P Sj) as (r1 & c1 & C1 & _ & D1); [lia|].
      destruct (standard_pos n l (tb o j) (tau + 1) P Sj) as (r2 & c2 & C2 & _ & D2); [lia|]. unfold del. rewrite D1, D2.
      pose proof (cell_bounds n l r1 c1 P C1). pose proof (cell_bounds n l r2 c2 P C2). lia. }
    pose proof (ptn_range n l o tau G Ht i Hi) as Hp. destruct (H i Hi) as (E1 & B1). destruct (H _ Hp) as (E2 & B2). unfold fcol'.
    destruct (adj (del tau (tb o i))) eqn:A.
    - destruct (f_scale_ok (del tau (tb o i)) (f i) (g i) NZ (DB i Hi) E1 B1) as (r & Er & K). exists r. split; auto. rewrite (col_adj n l o tau G g i Hi A), (Dd_adj _ A).
      pose proof (Rabs_pos (g (ptn o tau i))). assert (0 <= alpha * Rabs (g (ptn o tau i))) by (apply Rmult_le_pos; [unfold alpha|]; lra). lra.
    - destruct (Z.ltb_spec i (ptn o tau i)) as [Lt|Ge].
      + destruct (f_row1_ok (del tau (tb o i)) _ _ _ _ NZ (DB i Hi) E1 E2 B1 B2) as (r & Er & K). exists r. split; auto. rewrite (col_pair n l o tau G g i Hi A). exact K.
      + assert (del tau (tb o (ptn o tau i)) <> 0)%Z as NZ2 by (rewrite (del_ptn n l o tau G Ht i Hi A); lia).
        destruct (f_row2_ok (del tau (tb o (ptn o tau i))) _ _ _ _ NZ2 (DB _ Hp) E2 E1 B2 B1) as (r & Er & K). exists r. split; auto. rewrite (col_pair n l o tau G g i Hi A).
        rewrite (del_ptn n l o tau G Ht i Hi A), Dd_opp, Sd_opp, Ropp_involutive in K. exact K.
  Qed.
End Step.
