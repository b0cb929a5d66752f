(* Block and strided actions of SnIrrepObj. *)
From Coq Require Import ZArith List Bool Lia ZifyBool ZifyNat Reals Lra.
From Verif Require Import Model_Base Model_Perm Model_Part Model_Comb Model_Tab Model_Irrep.
From Verif Require Import Spec_Perm Spec_Part Spec_Tab Spec_Rep.
From Verif Require Import Proof_Base Proof_Perm Proof_PermProps Proof_Part Proof_Tab Proof_TabProps Proof_Cycles Proof_Cox Proof_Yor Proof_Sum Proof_Irrep Proof_Rep Proof_Mat Proof_IrrepProps.
Import ListNotations.
Open Scope Z_scope.

Section Blocks.
  Variables (n : Z) (l : list Z) (o : irr).
  Hypothesis G : good n l o.

  (* the columns selected by [on] are transformed by the word w, the others are unchanged *)
  Definition coltr (on : Z -> bool) (w : list Z) (A A' : mat) : Prop :=
    m_n0 A' = m_n0 A /\ m_n1 A' = m_n1 A /\
    forall i c, 0 <= i < io_d o -> m_at A' i c = if on c then aw TT w (fcol o (fun i => m_at A i c)) (tb o i) else m_at A i c.

  Lemma coltr_nil on A : coltr on [] A A.
  Proof.
    split; auto. split; auto. intros i c Hi. unfold aw; cbn [fold_left]. rewrite (fcol_tb n l o G) by auto. destruct (on c); reflexivity.
  Qed.

  Lemma coltr_comp on w w' A A' A'' : (forall j, In j w' -> 1 <= j < n) -> coltr on w A A' -> coltr on w' A' A'' -> coltr on (w ++ w') A A''.
  Proof.
    intros Hw (N0 & N1 & V) (M0 & M1 & V'). split; [congruence|]. split; [congruence|]. intros i c Hi. rewrite V', V by auto. destruct (on c) eqn:Q; auto.
    rewrite aw_app. apply (aw_eqv (eqS l) (fun _ => True) TT n); auto; [apply cox_TT; apply G| |eapply tb_standard; eauto].
    apply (fcol_eqS n l o G). intros k Hk. rewrite V by auto. rewrite Q. reflexivity.
  Qed.

  Lemma coltr_union on on' w A A' A'' : (forall c, on c = true -> on' c = false) -> coltr on w A A' -> coltr on' w A' A'' ->
    (forall j, In j w -> 1 <= j < n) -> coltr (fun c => on c || on' c) w A A''.
  Proof.
    intros D (N0 & N1 & V) (M0 & M1 & V') Hw. split; [congruence|]. split; [congruence|]. intros i c Hi. rewrite V', V by auto.
    destruct (on c) eqn:Q.
    - rewrite (D c Q). reflexivity.
    - cbn [orb]. destruct (on' c); auto. apply (aw_eqv (eqS l) (fun _ => True) TT n); auto; [apply cox_TT; apply G| |eapply tb_standard; eauto].
      intros t St. destruct (pos_standard n l o t G St) as (B & _). unfold fcol. rewrite V by auto. rewrite Q. reflexivity.
  Qed.

  Lemma coltr_ext on on' w A A' : (forall c, on c = on' c) -> coltr on w A A' -> coltr on' w A A'.
  Proof. intros E (N0 & N1 & V). split; auto. split; auto. intros i c Hi. rewrite V by auto. rewrite E. reflexivity. Qed.

  Lemma block_word beg e w A : (forall j, In j w -> 1 <= j < n) -> m_n0 A = io_d o -> 0 <= beg -> e <= m_n1 A ->
    exists A', foldM (fun a => irr_apply_block o a beg e) w A = Ret A' /\ coltr (incols beg e) w A A'.
  Proof.
    intros Hw N0 Hb He. destruct (acts_word n l o G _ _ _ _ (acts_block n l o G beg e (m_n1 A) Hb He) w A Hw (conj N0 eq_refl)) as (A' & E & (M0 & M1) & V).
    exists A'. split; [exact E|]. split; [congruence|]. split; [auto|]. intros i c Hi. rewrite V by auto. reflexivity.
  Qed.

  (* columns of the blocks numbered below q *)
  Definition instr (beg e stride q c : Z) : bool := (0 <=? c) && (c <? q * stride) && (beg <=? c mod stride) && (c mod stride <? e).

  Lemma strided_word beg e stride w A : (forall j, In j w -> 1 <= j < n) -> m_n0 A = io_d o -> 0 < stride -> 0 <= beg -> e <= stride -> 0 <= m_n1 A ->
    exists A', zfor 0 (m_n1 A / stride) (fun j A => foldM (fun a => irr_apply_block o a (beg + j * stride) (e + j * stride)) w A) A = Ret A' /\
      coltr (instr beg e stride (m_n1 A / stride)) w A A'.
  Proof.
    intros Hw N0 Hs Hb He N1. pose proof (Z.div_pos (m_n1 A) stride N1 Hs) as Hq. pose proof (Z.mul_div_le (m_n1 A) stride Hs) as Hm.
    destruct (zfor_inv (fun q A' => coltr (instr beg e stride q) w A A') 0 (m_n1 A / stride)
      (fun j A => foldM (fun a => irr_apply_block o a (beg + j * stride) (e + j * stride)) w A) A) as (A' & E & K).
    - auto.
    - split; auto. split; auto. intros i c Hi. unfold instr. replace ((0 <=? c) && (c <? 0 * stride)) with false by lia. reflexivity.
    - intros q A1 Hq1 K1. pose proof K1 as (M0 & M1 & V1).
      destruct (block_word (beg + q * stride) (e + q * stride) w A1 Hw) as (A2 & E2 & K2); [congruence|nia| rewrite M1; nia |].
      exists A2. split; [exact E2|]. apply (coltr_ext (fun c => instr beg e stride q c || incols (beg + q * stride) (e + q * stride) c)).
      + intros c. unfold instr, incols. pose proof (Z.div_mod c stride ltac:(lia)) as DM. pose proof (Z.mod_pos_bound c stride Hs) as MB.
        destruct (Z_lt_dec c 0) as [Lc|Lc].
        * replace (0 <=? c) with false by lia. cbn [andb orb]. nia.
        * replace (0 <=? c) with true by lia. cbn [andb].
          destruct (Z_lt_dec (c / stride) q) as [L|L]; [|destruct (Z.eq_dec (c / stride) q) as [Q|Q]].
          -- replace (c <? q * stride) with true by nia. replace (c <? (q + 1) * stride) with true by nia. cbn [andb].
             replace ((beg + q * stride <=? c) && (c <? e + q * stride)) with false by nia. rewrite orb_false_r. reflexivity.
          -- replace (c <? q * stride) with false by nia. replace (c <? (q + 1) * stride) with true by nia. cbn [andb orb]. rewrite <- Q. nia.
          -- replace (c <? q * stride) with false by nia. replace (c <? (q + 1) * stride) with false by nia. cbn [andb orb].
             replace ((beg + q * stride <=? c) && (c <? e + q * stride)) with false by nia. reflexivity.
      + apply (coltr_union _ _ w A A1 A2); auto. intros c Hc. unfold instr in Hc. unfold incols. nia.
    - exists A'. auto.
  Qed.

  (* one column of A multiplied by the matrix M, or left alone *)
  Definition colmul (on : Z -> bool) (M A A' : mat) : Prop :=
    m_n0 A' = m_n0 A /\ m_n1 A' = m_n1 A /\
    forall i c, 0 <= i < io_d o -> m_at A' i c = if on c then mprod (io_d o) (m_at M) (m_at A) i c else m_at A i c.

  Lemma coltr_colmul on w A A' : (forall j, In j w -> 1 <= j < n) -> coltr on w A A' ->
    exists M, irr_matrix o (pw n w) = Ret M /\ colmul on M A A'.
  Proof.
    intros Hw (N0 & N1 & V). pose proof (proj1 (proj2 G)) as Hn. assert (is_perm n (pw n w)) as P by (apply is_perm_pw; auto; lia).
    destruct (matrix_ok n l o G (pw n w) P) as (M & E & M0 & M1 & VM). exists M. split; auto. split; auto. split; auto.
    intros i c Hi. rewrite V by auto. destruct (on c); auto.
    rewrite (word_Phi n l w _); auto; [|apply G|eapply tb_standard; eauto].
    fold (pw n w). rewrite (Phi_sum n l o G) by auto. unfold mprod. apply rsum_ext. intros k Hk. rewrite VM by auto. reflexivity.
  Qed.
End Blocks.

Lemma block_generator n l o tau beg e A : is_part n l -> 1 <= tau < n -> irr_new l = Ret o -> m_n0 A = io_d o -> 0 <= beg -> e <= m_n1 A -> 0 <= m_n1 A ->
  exists A' B, irr_apply_block o tau beg e A = Ret A' /\ irr_apply o tau A = Ret B /\ m_n0 A' = m_n0 A /\ m_n1 A' = m_n1 A /\
    forall i j, 0 <= i < io_d o -> 0 <= j < m_n1 A -> m_at A' i j = if (beg <=? j) && (j <? e) then m_at B i j else m_at A i j.
Proof.
  intros P Ht E N0 Hb He N1. pose proof (irr_new_good n l o P ltac:(lia) E) as G.
  destruct (apply_block_ok n l o tau G Ht beg e A N0 Hb He) as (A' & EA & M0 & M1 & V).
  destruct (apply_block_ok n l o tau G Ht 0 (m_n1 A) A N0 ltac:(lia) ltac:(lia)) as (B & EB & _ & _ & VB).
  exists A', B. split; auto. split; auto. split; auto. split; auto. intros i j Hi Hj. rewrite V, VB by auto. rewrite (incols_in 0) by lia. reflexivity.
Qed.

Lemma pword_pw n p : is_perm n p -> pw n (pword (Z.to_nat n) p) = p /\ forall j, In j (pword (Z.to_nat n) p) -> 1 <= j < n.
Proof. intros P. split; [apply pw_pword; auto|]. intros j Hj. eapply pword_in; eauto. Qed.

Lemma block_perm n l o p beg e A : is_part n l -> 1 <= n -> irr_new l = Ret o -> is_perm n p -> m_n0 A = io_d o -> 0 <= beg -> e <= m_n1 A ->
  exists M A', irr_matrix o p = Ret M /\ irr_apply_perm_block o p beg e A = Ret A' /\ m_n0 A' = m_n0 A /\ m_n1 A' = m_n1 A /\
    forall i j, 0 <= i < io_d o -> 0 <= j < m_n1 A ->
      m_at A' i j = if (beg <=? j) && (j <? e) then mprod (io_d o) (m_at M) (m_at A) i j else m_at A i j.
Proof.
  intros P Hn E Pp N0 Hb He. pose proof (irr_new_good n l o P Hn E) as G. destruct (pword_pw n p Pp) as (Ew & Hw).
  destruct (block_word n l o G beg e (pword (Z.to_nat n) p) A Hw N0 Hb He) as (A' & EA & K).
  destruct (coltr_colmul n l o G _ _ _ _ Hw K) as (M & EM & M0 & M1 & V). rewrite Ew in EM. exists M, A'. split; auto. split.
  - unfold irr_apply_perm_block. replace (io_n o) with n by (symmetry; apply G). rewrite act_perm_word by auto. exact EA.
  - split; auto. split; auto. intros i j Hi Hj. apply V; auto.
Qed.

Lemma block_cycle n l o a b beg e A : is_part n l -> 1 <= n -> irr_new l = Ret o -> 1 <= a -> a <= b -> b <= n -> m_n0 A = io_d o -> 0 <= beg -> e <= m_n1 A ->
  exists c M A', p_contiguous_cycle n a b = Ret c /\ irr_matrix o c = Ret M /\
    act_cycle_block (fun t => irr_apply_block o t beg e) (mkCyc a b) A = Ret A' /\ m_n0 A' = m_n0 A /\ m_n1 A' = m_n1 A /\
    forall i j, 0 <= i < io_d o -> 0 <= j < m_n1 A ->
      m_at A' i j = if (beg <=? j) && (j <? e) then mprod (io_d o) (m_at M) (m_at A) i j else m_at A i j.
Proof.
  intros P Hn E Ha Hab Hbn N0 Hb He. pose proof (irr_new_good n l o P Hn E) as G.
  assert (forall j, In j (cyc a b) -> 1 <= j < n) as Hw by (intros j Hj; apply in_cyc in Hj; lia).
  destruct (block_word n l o G beg e (cyc a b) A Hw N0 Hb He) as (A' & EA & K).
  destruct (coltr_colmul n l o G _ _ _ _ Hw K) as (M & EM & M0 & M1 & V).
  assert (pw n (cyc a b) = pcyc n a b) as Ec.
  { destruct (Z.eq_dec a b) as [->|]; [rewrite cyc_nil by lia; rewrite pcyc_self by lia; reflexivity|]. rewrite <- pw_wcyc by lia. unfold wcyc. destruct (Z.ltb_spec a b); [auto|lia]. }
  rewrite Ec in EM. exists (pcyc n a b), M, A'. split; [apply p_contiguous_cycle_ok; lia|]. split; auto. split; [rewrite act_cycle_block_word; exact EA|]. split; auto. split; auto. intros i j Hi Hj. apply V; auto.
Qed.

(* a reversed cycle does nothing in the block version *)
Lemma block_cycle_reversed o a b beg e A : b <= a -> act_cycle_block (fun t => irr_apply_block o t beg e) (mkCyc a b) A = Ret A.
Proof. intros H. rewrite act_cycle_block_word. rewrite cyc_nil by lia. reflexivity. Qed.

(* ---- strided ---- *)

Lemma zfor_ext {S} lo hi (f g : Z -> S -> outcome S) s : (forall i s, lo <= i < hi -> f i s = g i s) -> zfor lo hi f s = zfor lo hi g s.
Proof.
  unfold zfor. intros H. assert (forall L s, (forall i, In i L -> lo <= i < hi) -> foldM f L s = foldM g L s) as K.
  { intros L. induction L as [|i L IH]; intros s1 HL; [reflexivity|]. cbn [foldM]. rewrite H by (apply HL; left; auto).
    destruct (g i s1); cbn [bind]; auto. apply IH. intros; apply HL; right; auto. }
  apply K. intros i Hi. apply in_zrange in Hi. lia.
Qed.

Lemma strided_cycle_word n l o s i beg e stride A : good n l o -> 1 <= s -> i <= n -> m_n0 A = io_d o -> 0 < stride -> 0 <= beg -> e <= stride -> 0 <= m_n1 A ->
  exists A', irr_apply_cycle_strided o (mkCyc s i) beg e stride A = Ret A' /\ coltr o (instr beg e stride (m_n1 A / stride)) (cyc s i) A A'.
Proof.
  intros G Hs Hi N0 Hst Hb He N1.
  destruct (strided_word n l o G beg e stride (cyc s i) A) as (A' & E & K); auto; [intros j Hj; apply in_cyc in Hj; lia|].
  exists A'. split; auto. unfold irr_apply_cycle_strided, cdiv. destruct (Z.eqb_spec stride 0); [lia|]. cbn [bind]. rewrite Z.quot_div_nonneg by lia.
  rewrite <- E. apply zfor_ext. intros j A1 Hj. apply act_cycle_block_word.
Qed.

Lemma strided_cycle n l o a b beg e stride A : is_part n l -> 1 <= n -> irr_new l = Ret o -> 1 <= a -> a <= b -> b <= n -> m_n0 A = io_d o ->
  0 < stride -> 0 <= beg -> e <= stride -> 0 <= m_n1 A ->
  exists c M A', p_contiguous_cycle n a b = Ret c /\ irr_matrix o c = Ret M /\
    irr_apply_cycle_strided o (mkCyc a b) beg e stride A = Ret A' /\ m_n0 A' = m_n0 A /\ m_n1 A' = m_n1 A /\
    forall i j, 0 <= i < io_d o -> 0 <= j < m_n1 A ->
      m_at A' i j = if (j <? m_n1 A / stride * stride) && (beg <=? j mod stride) && (j mod stride <? e) then mprod (io_d o) (m_at M) (m_at A) i j else m_at A i j.
Proof.
  intros P Hn E Ha Hab Hbn N0 Hst Hb He N1. pose proof (irr_new_good n l o P Hn E) as G.
  destruct (strided_cycle_word n l o a b beg e stride A G Ha Hbn N0 Hst Hb He N1) as (A' & EA & K).
  assert (forall j, In j (cyc a b) -> 1 <= j < n) as Hw by (intros j Hj; apply in_cyc in Hj; lia).
  destruct (coltr_colmul n l o G _ _ _ _ Hw K) as (M & EM & M0 & M1 & V).
  assert (pw n (cyc a b) = pcyc n a b) as Ec.
  { destruct (Z.eq_dec a b) as [->|]; [rewrite cyc_nil by lia; rewrite pcyc_self by lia; reflexivity|]. rewrite <- pw_wcyc by lia. unfold wcyc. destruct (Z.ltb_spec a b); [auto|lia]. }
  rewrite Ec in EM. exists (pcyc n a b), M, A'. split; [apply p_contiguous_cycle_ok; lia|]. split; auto. split; auto. split; auto. split; auto.
  intros i j Hi Hj. rewrite V by auto. unfold instr. replace (0 <=? j) with true by lia. reflexivity.
Qed.

Lemma pword_concat k : forall q, pword k q = concat (map (fun i => cyc (znth (shl k q) (i - 1) 0) i) (zrange 1 (Z.of_nat k + 1))).
Proof.
  induction k as [|k IH]; intros q; [reflexivity|]. replace (Z.of_nat (S k) + 1) with (Z.of_nat k + 1 + 1) by lia. rewrite zrange_snoc by lia.
  rewrite map_app, concat_app. cbn [pword]. f_equal.
  - rewrite IH. f_equal. apply map_ext_in. intros i Hi. apply in_zrange in Hi. cbn [shl]. rewrite znth_app by lia. rewrite zlen_shl. destruct (Z.ltb_spec (i - 1) (Z.of_nat k)); [auto|lia].
  - cbn [map concat]. rewrite app_nil_r. cbn [shl]. rewrite znth_app by lia. rewrite zlen_shl. replace (Z.of_nat k + 1 - 1) with (Z.of_nat k) by lia.
    rewrite Z.ltb_irrefl. replace (Z.of_nat k - Z.of_nat k) with 0 by lia. reflexivity.
Qed.

Lemma shl_range k : forall q i, is_perm (Z.of_nat k) q -> 0 <= i < Z.of_nat k -> 1 <= znth (shl k q) i 0 <= i + 1.
Proof.
  induction k as [|k IH]; intros q i Q Hi; [lia|]. cbn [shl]. rewrite znth_app by lia. rewrite zlen_shl. replace (Z.of_nat (S k)) with (Z.of_nat k + 1) in * by lia.
  destruct (Z.ltb_spec i (Z.of_nat k)).
  - apply IH; [apply is_perm_prest; [lia|auto]|lia].
  - assert (i = Z.of_nat k) by lia. subst i. replace (Z.of_nat k - Z.of_nat k) with 0 by lia. change (znth [img q (Z.of_nat k + 1)] 0 0) with (img q (Z.of_nat k + 1)).
    apply (is_perm_img _ _ _ Q). lia.
Qed.

Lemma strided_perm n l o p beg e stride A : is_part n l -> 1 <= n -> irr_new l = Ret o -> is_perm n p -> m_n0 A = io_d o ->
  0 < stride -> 0 <= beg -> e <= stride -> 0 <= m_n1 A ->
  exists M A', irr_matrix o p = Ret M /\
    irr_apply_perm_strided o p beg e stride A = Ret A' /\ m_n0 A' = m_n0 A /\ m_n1 A' = m_n1 A /\
    forall i j, 0 <= i < io_d o -> 0 <= j < m_n1 A ->
      m_at A' i j = if (j <? m_n1 A / stride * stride) && (beg <=? j mod stride) && (j mod stride <? e) then mprod (io_d o) (m_at M) (m_at A) i j else m_at A i j.
Proof.
  intros P Hn E Pp N0 Hst Hb He N1. pose proof (irr_new_good n l o P Hn E) as G. pose proof (pword_pw n p Pp) as (Ew & Hw).
  assert (Z.of_nat (Z.to_nat n) = n) as En by lia. set (sh := shl (Z.to_nat n) p).
  assert (forall i, 0 <= i < n -> 1 <= znth sh i 0 <= i + 1) as SR by (intros i Hi; apply shl_range; rewrite En; auto).
  assert (zlen sh = n) as Lsh by (unfold sh; rewrite zlen_shl; lia).
  set (W := fun i => concat (map (fun i => cyc (znth sh (i - 1) 0) i) (zrange 1 i))).
  destruct (zfor_inv (fun i A' => coltr o (instr beg e stride (m_n1 A / stride)) (W i) A A') 2 (n + 1)
    (fun i A => s <- rd sh (i - 1) ;; irr_apply_cycle_strided o (mkCyc s i) beg e stride A) A) as (A' & EA & K).
  - lia.
  - replace (W 2) with (@nil Z); [apply (coltr_nil n l o G)|]. unfold W. rewrite (zrange_cons 1 2) by lia. rewrite zrange_nil by lia. cbn [map concat]. rewrite app_nil_r.
    symmetry. apply cyc_nil. specialize (SR 0). change (1 - 1) with 0. lia.
  - intros i A1 Hi K1. rewrite (rd_ok _ _ 0) by lia. cbn [bind]. specialize (SR (i - 1) ltac:(lia)). pose proof K1 as (M0 & M1 & V1).
    destruct (strided_cycle_word n l o (znth sh (i - 1) 0) i beg e stride A1 G ltac:(lia) ltac:(lia)) as (A2 & E2 & K2); auto; [congruence|lia|].
    exists A2. split; auto. rewrite M1 in K2. replace (W (i + 1)) with (W i ++ cyc (znth sh (i - 1) 0) i).
    + apply (coltr_comp n l o G _ _ _ A A1 A2); auto. intros j Hj. apply in_cyc in Hj. lia.
    + unfold W. rewrite zrange_snoc by lia. rewrite map_app, concat_app. cbn [map concat]. rewrite app_nil_r. reflexivity.
  - assert (W (n + 1) = pword (Z.to_nat n) p) as EW by (unfold W; rewrite pword_concat, En; reflexivity). rewrite EW in K.
    destruct (coltr_colmul n l o G _ _ _ _ Hw K) as (M & EM & M0 & M1 & V). rewrite Ew in EM. exists M, A'. split; auto. split.
    + unfold irr_apply_perm_strided. replace (io_n o) with n by (symmetry; apply G). rewrite perm_shifts_ok by auto. cbn [bind]. exact EA.
    + split; auto. split; auto. intros i j Hi Hj. rewrite V by auto. unfold instr. replace (0 <=? j) with true by lia. reflexivity.
Qed.
