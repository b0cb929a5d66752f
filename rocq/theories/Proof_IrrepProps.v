(* Statements about SnIrrepObj: generators, representation, orthogonality, cycles, blocks. *)
From Coq Require Import ZArith List Bool Lia ZifyBool ZifyNat Reals Lra.
From Verif Require Import Model_Base Model_Perm Model_Part Model_Comb Model_Tab Model_Irrep.
From Verif Require Import Spec_Perm Spec_Part Spec_Tab Spec_Rep.
From Verif Require Import Proof_Base Proof_Perm Proof_PermProps Proof_Part Proof_Tab Proof_TabProps Proof_Cycles Proof_Cox Proof_Yor Proof_Sum Proof_Irrep Proof_Rep Proof_Mat.
Import ListNotations.
Open Scope Z_scope.

Lemma irr_new_good n l o : is_part n l -> 1 <= n -> irr_new l = Ret o -> good n l o.
Proof. intros P Hn E. destruct (irr_new_ok n l P Hn) as (o' & E' & G). rewrite E in E'. apply Ret_inj in E'. subst. auto. Qed.

Lemma io_d_nonneg o : 0 <= io_d o. Proof. apply zlen_nonneg. Qed.

Lemma irr_new_spec n l : is_part n l -> 1 <= n -> exists o, irr_new l = Ret o /\ io_n o = n /\ io_lambda o = l /\ young_tableaux l = Ret (io_tabs o).
Proof.
  intros P Hn. destruct (irr_new_ok n l P Hn) as (o & E & G). exists o. split; auto. pose proof G as (_ & _ & En & El & Et). split; auto. split; auto.
  rewrite (young_tableaux_ok n) by auto. rewrite Et. reflexivity.
Qed.

Lemma has_content_cont n l t v c : is_part n l -> standard l t -> has_content l t v c -> cont t v = c.
Proof.
  intros P S (r & k & C & E & ->). rewrite <- E. apply cont_cell.
  - apply (standard_fill n l t P S).
  - rewrite (proj1 (has_shape_shp _ _) (proj1 S)). auto.
Qed.

Lemma exchanged_tswap i t : exchanged i t (tswap i (i + 1) t).
Proof.
  unfold exchanged, tswap. apply map_ext. intros r. apply map_ext. intros v. unfold swp.
  destruct (Z.eqb_spec v i), (Z.eq_dec v i); auto; try contradiction. destruct (Z.eqb_spec v (i + 1)), (Z.eq_dec v (i + 1)); auto; contradiction.
Qed.

(* the generator in terms of tableaux and contents *)
Lemma generator_formula n l o tau A : is_part n l -> 1 <= tau < n -> irr_new l = Ret o -> m_n0 A = io_d o -> 0 <= m_n1 A ->
  exists A', irr_apply o tau A = Ret A' /\ m_n0 A' = m_n0 A /\ m_n1 A' = m_n1 A /\
    forall i j a b, 0 <= i < io_d o -> 0 <= j < m_n1 A ->
      has_content l (znth (io_tabs o) i []) tau a -> has_content l (znth (io_tabs o) i []) (tau + 1) b ->
      ((b - a = 1 \/ b - a = -1) /\ m_at A' i j = (IZR (b - a) * m_at A i j)%R) \/
      (exists i', 0 <= i' < io_d o /\ exchanged tau (znth (io_tabs o) i []) (znth (io_tabs o) i' []) /\
         m_at A' i j = (1 / IZR (b - a) * m_at A i j + sqrt (1 - 1 / (IZR (b - a) * IZR (b - a))) * m_at A i' j)%R).
Proof.
  intros P Ht E N0 N1. pose proof (irr_new_good n l o P ltac:(lia) E) as G.
  destruct (apply_block_ok n l o tau G Ht 0 (m_n1 A) A N0 ltac:(lia) ltac:(lia)) as (A' & EA & M0 & M1 & V).
  exists A'. split; [exact EA|]. split; auto. split; auto. intros i j a b Hi Hj Ha Hb. rewrite V by auto. rewrite incols_in by lia.
  pose proof (tb_standard n l o i G Hi) as S. fold (tb o i) in Ha, Hb |- *.
  assert (del tau (tb o i) = b - a) as D by (unfold del; rewrite (has_content_cont n l _ _ _ P S Ha), (has_content_cont n l _ _ _ P S Hb); auto).
  destruct (adj (del tau (tb o i))) eqn:AD.
  - left. split; [unfold adj in AD; lia|]. rewrite (col_adj n l) by auto. rewrite D. reflexivity.
  - right. exists (ptn o tau i). split; [eapply ptn_range; eauto|]. split.
    + fold (tb o (ptn o tau i)). rewrite (tb_ptn n l) by auto. apply exchanged_tswap.
    + rewrite (col_pair n l) by auto. rewrite D. rewrite <- Dd_div, <- Sd_div, mult_IZR. reflexivity.
Qed.

(* a word of generators acts as the permutation it spells *)
Lemma word_moved n l o w A : good n l o -> (forall j, In j w -> 1 <= j < n) -> m_n0 A = io_d o -> 0 <= m_n1 A ->
  moved n o (pw n w) A (foldM (irr_apply o) w A).
Proof.
  intros G Hw N0 N1. apply (moved_of n l o G); [apply is_perm_pw; auto; pose proof (proj1 (proj2 G)); lia|].
  destruct (acts_perm_w n l o G _ _ _ _ (acts_mat n l o G (m_n1 A) N1) w A Hw (conj N0 eq_refl)) as (A' & E & O & V). exists A'. auto.
Qed.

Lemma same_moved n o p A r r' : moved n o p A r -> moved n o p A r' ->
  exists B C, r = Ret B /\ r' = Ret C /\ m_n0 B = io_d o /\ m_n1 B = m_n1 A /\ m_n0 C = io_d o /\ m_n1 C = m_n1 A /\ agree (io_d o) (m_n1 A) (m_at B) (m_at C).
Proof.
  intros (B & EB & B0 & B1 & VB) (C & EC & C0 & C1 & VC). exists B, C. repeat (split; [auto|]). intros i j Hi Hj. rewrite VB, VC by auto. reflexivity.
Qed.

Lemma moved_id n l o A : good n l o -> m_n0 A = io_d o -> moved n o (pid n) A (Ret A).
Proof.
  intros G N0. exists A. split; auto. split; auto. split; auto. intros i j Hi Hj. unfold mprod.
  rewrite (rsum_ext _ _ (fun k => (m_at A k j * delta k i)%R)).
  - rewrite rsum_delta; auto.
  - intros k Hk. rewrite (rho_id n l o G) by auto. unfold delta. destruct (Z.eq_dec i k), (Z.eq_dec k i); try congruence; ring.
Qed.

Lemma pw_cox_invol n i : 1 <= i < n -> pw n [i; i] = pid n.
Proof.
  intros Hi. apply (perm_ext n); [apply is_perm_len; apply is_perm_pw; [lia|]; intros j [<-|[<-|[]]]; lia|apply zlen_pid; lia|].
  intros k Hk. unfold pw, aw. cbn [fold_left]. rewrite !img_pstep by (try lia; try apply is_perm_pstep; try lia; apply is_perm_pid; lia).
  rewrite img_pid by lia. unfold tfun. zc.
Qed.

Lemma pw3 n a b c k : 1 <= a < n -> 1 <= b < n -> 1 <= c < n -> 1 <= k <= n -> img (pw n [a; b; c]) k = tfun c (c + 1) (tfun b (b + 1) (tfun a (a + 1) k)).
Proof.
  intros Ha Hb Hc Hk. assert (is_perm n (pid n)) as P0 by (apply is_perm_pid; lia). pose proof (is_perm_pstep n a _ Ha P0) as P1. pose proof (is_perm_pstep n b _ Hb P1) as P2.
  unfold pw, aw. cbn [fold_left]. rewrite !img_pstep by (auto; lia). rewrite img_pid by lia. reflexivity.
Qed.

Lemma pw2 n a b k : 1 <= a < n -> 1 <= b < n -> 1 <= k <= n -> img (pw n [a; b]) k = tfun b (b + 1) (tfun a (a + 1) k).
Proof.
  intros Ha Hb Hk. assert (is_perm n (pid n)) as P0 by (apply is_perm_pid; lia). pose proof (is_perm_pstep n a _ Ha P0) as P1.
  unfold pw, aw. cbn [fold_left]. rewrite !img_pstep by (auto; lia). rewrite img_pid by lia. reflexivity.
Qed.

Lemma pw_ext n w w' : 0 <= n -> (forall j, In j w -> 1 <= j < n) -> (forall j, In j w' -> 1 <= j < n) -> (forall k, 1 <= k <= n -> img (pw n w) k = img (pw n w') k) -> pw n w = pw n w'.
Proof. intros Hn H H' E. apply (perm_ext n); auto; apply is_perm_len; apply is_perm_pw; auto. Qed.

Lemma coxeter_relations n l o A : is_part n l -> 1 <= n -> irr_new l = Ret o -> m_n0 A = io_d o -> 0 <= m_n1 A ->
  (forall i, 1 <= i < n -> exists B, foldM (irr_apply o) [i; i] A = Ret B /\ m_n0 B = io_d o /\ m_n1 B = m_n1 A /\ agree (io_d o) (m_n1 A) (m_at B) (m_at A)) /\
  (forall i, 1 <= i -> i + 1 < n -> exists B C, foldM (irr_apply o) [i; i + 1; i] A = Ret B /\ foldM (irr_apply o) [i + 1; i; i + 1] A = Ret C /\
     m_n0 B = io_d o /\ m_n1 B = m_n1 A /\ m_n0 C = io_d o /\ m_n1 C = m_n1 A /\ agree (io_d o) (m_n1 A) (m_at B) (m_at C)) /\
  (forall i j, 1 <= i < n -> 1 <= j < n -> i + 1 < j \/ j + 1 < i -> exists B C, foldM (irr_apply o) [i; j] A = Ret B /\ foldM (irr_apply o) [j; i] A = Ret C /\
     m_n0 B = io_d o /\ m_n1 B = m_n1 A /\ m_n0 C = io_d o /\ m_n1 C = m_n1 A /\ agree (io_d o) (m_n1 A) (m_at B) (m_at C)).
Proof.
  intros P Hn E N0 N1. pose proof (irr_new_good n l o P Hn E) as G. split; [|split].
  - intros i Hi. assert (forall j, In j [i; i] -> 1 <= j < n) as W by (intros j [<-|[<-|[]]]; lia).
    pose proof (word_moved n l o [i; i] A G W N0 N1) as M. rewrite pw_cox_invol in M by auto.
    destruct (same_moved _ _ _ _ _ _ M (moved_id n l o A G N0)) as (B & C & EB & EC & B0 & B1 & _ & _ & V). apply Ret_inj in EC. subst C. eauto.
  - intros i Hi Hi'. assert (forall j, In j [i; i + 1; i] -> 1 <= j < n) as W by (intros j [<-|[<-|[<-|[]]]]; lia).
    assert (forall j, In j [i + 1; i; i + 1] -> 1 <= j < n) as W' by (intros j [<-|[<-|[<-|[]]]]; lia).
    pose proof (word_moved n l o _ A G W N0 N1) as M. pose proof (word_moved n l o _ A G W' N0 N1) as M'.
    rewrite (pw_ext n [i + 1; i; i + 1] [i; i + 1; i]) in M'; [|lia|auto|auto| ].
    + destruct (same_moved _ _ _ _ _ _ M M') as (B & C & K). exists B, C. exact K.
    + intros k Hk. rewrite !pw3 by lia. unfold tfun. zc.
  - intros i j Hi Hj Hij. assert (forall k, In k [i; j] -> 1 <= k < n) as W by (intros k [<-|[<-|[]]]; lia).
    assert (forall k, In k [j; i] -> 1 <= k < n) as W' by (intros k [<-|[<-|[]]]; lia).
    pose proof (word_moved n l o _ A G W N0 N1) as M. pose proof (word_moved n l o _ A G W' N0 N1) as M'.
    rewrite (pw_ext n [j; i] [i; j]) in M'; [|lia|auto|auto| ].
    + destruct (same_moved _ _ _ _ _ _ M M') as (B & C & K). exists B, C. exact K.
    + intros k Hk. rewrite !pw2 by lia. unfold tfun. zc.
Qed.

(* ---- homomorphism ---- *)

Lemma is_mult_pmul n a b c : is_perm n a -> is_perm n b -> is_mult n a b c -> c = pmul a b.
Proof.
  intros A B (C & V). pose proof (is_perm_len _ _ B). apply (perm_ext n); [apply is_perm_len; auto|apply is_perm_len; apply (is_perm_pmul n); auto|].
  intros i Hi. rewrite V by auto. rewrite img_pmul by lia. reflexivity.
Qed.

Lemma is_identity_pid n p : is_identity n p -> p = pid n.
Proof. intros (P & V). pose proof (is_perm_nonneg _ _ P). apply (perm_ext n); [apply is_perm_len; auto|apply zlen_pid; auto|]. intros i Hi. rewrite V, img_pid by lia. reflexivity. Qed.

Lemma is_inverse_pinv n p q : is_perm n p -> is_inverse n p q -> q = pinv p.
Proof.
  intros P (Q & V). pose proof (is_perm_nonneg _ _ P). pose proof (is_perm_pinv n p P) as Pi.
  apply (perm_ext n); [apply is_perm_len; auto|apply is_perm_len; auto|]. intros i Hi.
  pose proof (is_perm_img n (pinv p) i Pi Hi) as B.
  assert (img p (img (pinv p) i) = i) as E.
  { rewrite <- img_pmul by (rewrite (is_perm_len _ _ Pi); lia). rewrite (pmul_pinv_r n) by auto. apply img_pid. lia. }
  rewrite <- E at 1. apply V. lia.
Qed.

Lemma mprod_ext d A A' B B' m : agree d d A A' -> agree d m B B' -> agree d m (mprod d A B) (mprod d A' B').
Proof. intros HA HB i j Hi Hj. unfold mprod. apply rsum_ext. intros k Hk. rewrite HA, HB by auto. reflexivity. Qed.

Lemma agree_trans r c A B C : agree r c A B -> agree r c B C -> agree r c A C.
Proof. intros H K i j Hi Hj. rewrite H by auto. auto. Qed.
Lemma agree_sym r c A B : agree r c A B -> agree r c B A.
Proof. intros H i j Hi Hj. symmetry. auto. Qed.

Lemma representation n l o a b c : is_part n l -> 1 <= n -> irr_new l = Ret o -> is_perm n a -> is_perm n b -> is_mult n a b c ->
  exists Ma Mb Mc, irr_matrix o a = Ret Ma /\ irr_matrix o b = Ret Mb /\ irr_matrix o c = Ret Mc /\
    m_n0 Mc = io_d o /\ m_n1 Mc = io_d o /\ agree (io_d o) (io_d o) (m_at Mc) (mprod (io_d o) (m_at Ma) (m_at Mb)).
Proof.
  intros P Hn E A B M. pose proof (irr_new_good n l o P Hn E) as G. pose proof (is_mult_pmul n a b c A B M) as ->.
  destruct (matrix_ok n l o G a A) as (Ma & Ea & A0 & A1 & Va). destruct (matrix_ok n l o G b B) as (Mb & Eb & B0 & B1 & Vb).
  destruct (matrix_ok n l o G (pmul a b) ltac:(apply (is_perm_pmul n); auto)) as (Mc & Ec & C0 & C1 & Vc).
  exists Ma, Mb, Mc. repeat (split; [auto|]). apply (agree_trans _ _ _ (rho n o (pmul a b))); auto.
  apply (agree_trans _ _ _ (mprod (io_d o) (rho n o a) (rho n o b))).
  - intros i j Hi Hj. apply (rho_mul n l o G); auto.
  - apply mprod_ext; apply agree_sym; auto.
Qed.

Lemma identity_matrix n l o e : is_part n l -> 1 <= n -> irr_new l = Ret o -> is_identity n e ->
  exists M, irr_matrix o e = Ret M /\ m_n0 M = io_d o /\ m_n1 M = io_d o /\ agree (io_d o) (io_d o) (m_at M) delta.
Proof.
  intros P Hn E I. pose proof (irr_new_good n l o P Hn E) as G. rewrite (is_identity_pid n e I).
  destruct (matrix_ok n l o G (pid n)) as (M & EM & M0 & M1 & V); [apply is_perm_pid; lia|]. exists M. repeat (split; [auto|]).
  intros i j Hi Hj. rewrite V by auto. apply (rho_id n l o G); auto.
Qed.

(* the matrix that applies *)
Lemma moved_matrix n l o p A r : good n l o -> is_perm n p -> moved n o p A r ->
  exists M A', irr_matrix o p = Ret M /\ r = Ret A' /\ m_n0 A' = io_d o /\ m_n1 A' = m_n1 A /\ agree (io_d o) (m_n1 A) (m_at A') (mprod (io_d o) (m_at M) (m_at A)).
Proof.
  intros G P (A' & E & N0 & N1 & V). destruct (matrix_ok n l o G p P) as (M & EM & M0 & M1 & VM). exists M, A'. repeat (split; [auto|]).
  apply (agree_trans _ _ _ _ _ V). apply mprod_ext; [apply agree_sym; auto|intros i j _ _; reflexivity].
Qed.

Lemma apply_is_multiplication n l o p A : is_part n l -> 1 <= n -> irr_new l = Ret o -> is_perm n p -> m_n0 A = io_d o -> 0 <= m_n1 A ->
  exists M A', irr_matrix o p = Ret M /\ irr_apply_perm o p A = Ret A' /\ m_n0 A' = io_d o /\ m_n1 A' = m_n1 A /\
    agree (io_d o) (m_n1 A) (m_at A') (mprod (io_d o) (m_at M) (m_at A)).
Proof.
  intros P Hn E Pp N0 N1. pose proof (irr_new_good n l o P Hn E) as G. apply (moved_matrix n l o p A _ G Pp). apply (apply_perm_ok n l o G); auto.
Qed.

Lemma wrong_size_aborts n l o p A : is_part n l -> 1 <= n -> irr_new l = Ret o -> zlen p <> n -> irr_apply_perm o p A = Abort.
Proof.
  intros P Hn E L. pose proof (irr_new_good n l o P Hn E) as G. unfold irr_apply_perm, act_perm. replace (io_n o) with n by (symmetry; apply G).
  rewrite perm_shifts_wrong by auto. reflexivity.
Qed.

(* ---- orthogonality ---- *)

Lemma orthogonal n l o p q : is_part n l -> 1 <= n -> irr_new l = Ret o -> is_perm n p -> is_inverse n p q ->
  exists M N, irr_matrix o p = Ret M /\ irr_matrix o q = Ret N /\
    agree (io_d o) (io_d o) (mprod (io_d o) (m_at M) (mtrans (m_at M))) delta /\
    agree (io_d o) (io_d o) (mprod (io_d o) (mtrans (m_at M)) (m_at M)) delta /\
    agree (io_d o) (io_d o) (m_at N) (mtrans (m_at M)).
Proof.
  intros P Hn E Pp Q. pose proof (irr_new_good n l o P Hn E) as G. rewrite (is_inverse_pinv n p q Pp Q).
  pose proof (is_perm_pinv n p Pp) as Pi.
  destruct (matrix_ok n l o G p Pp) as (M & EM & M0 & M1 & VM). destruct (matrix_ok n l o G (pinv p) Pi) as (N & EN & N0 & N1 & VN).
  exists M, N. split; [auto|]. split; [auto|]. split; [|split].
  - intros i j Hi Hj. rewrite <- (rho_orth_row n l o G p i j Pp Hi Hj). unfold mprod, mtrans. apply rsum_ext. intros k Hk. rewrite !VM by auto. reflexivity.
  - intros i j Hi Hj. rewrite <- (rho_orth n l o G p i j Pp Hi Hj). unfold mprod, mtrans. apply rsum_ext. intros k Hk. rewrite !VM by auto. reflexivity.
  - intros i j Hi Hj. rewrite VN by auto. rewrite (rho_inv n l o G) by auto. unfold mtrans. rewrite VM by auto. reflexivity.
Qed.

(* ---- overloads ---- *)

Definition same_as (o : irr) (A : mat) (r r' : outcome mat) : Prop :=
  exists B C, r = Ret B /\ r' = Ret C /\ m_n0 B = io_d o /\ m_n1 B = m_n1 A /\ m_n0 C = io_d o /\ m_n1 C = m_n1 A /\
    agree (io_d o) (m_n1 A) (m_at B) (m_at C).

Lemma cycle_overload n l o a b A : is_part n l -> 1 <= n -> irr_new l = Ret o -> 1 <= a <= n -> 1 <= b <= n -> m_n0 A = io_d o -> 0 <= m_n1 A ->
  exists c B C, p_contiguous_cycle n a b = Ret c /\ act_cycle (irr_apply o) (mkCyc a b) A = Ret B /\ irr_apply_perm o c A = Ret C /\
    m_n0 B = io_d o /\ m_n1 B = m_n1 A /\ m_n0 C = io_d o /\ m_n1 C = m_n1 A /\ agree (io_d o) (m_n1 A) (m_at B) (m_at C).
Proof.
  intros P Hn E Ha Hb N0 N1. pose proof (irr_new_good n l o P Hn E) as G. exists (pcyc n a b).
  destruct (same_moved _ _ _ _ _ _ (apply_cycle_ok n l o G a b A Ha Hb N0 N1) (apply_perm_ok n l o G (pcyc n a b) A (is_perm_pcyc n a b Ha Hb) N0 N1)) as (B & C & K).
  exists B, C. split; [apply p_contiguous_cycle_ok; auto|exact K].
Qed.

Lemma cycle_inv_overload n l o a b A : is_part n l -> 1 <= n -> irr_new l = Ret o -> 1 <= a -> a <= b -> b <= n -> m_n0 A = io_d o -> 0 <= m_n1 A ->
  exists c ci B C, p_contiguous_cycle n a b = Ret c /\ p_inverse c = Ret ci /\ act_cycle_inv (irr_apply o) (mkCyc a b) A = Ret B /\ irr_apply_perm o ci A = Ret C /\
    m_n0 B = io_d o /\ m_n1 B = m_n1 A /\ m_n0 C = io_d o /\ m_n1 C = m_n1 A /\ agree (io_d o) (m_n1 A) (m_at B) (m_at C).
Proof.
  intros P Hn E Ha Hb Hbn N0 N1. pose proof (irr_new_good n l o P Hn E) as G.
  destruct (cycle_reverse_is_inverse n a b ltac:(lia) ltac:(lia)) as (c & d & Ec & Ed & _ & Ei).
  rewrite p_contiguous_cycle_ok in Ed by lia. apply Ret_inj in Ed. subst d. exists c, (pcyc n b a).
  destruct (same_moved _ _ _ _ _ _ (apply_cycle_inv_ok n l o G a b A Ha Hb Hbn N0 N1) (apply_perm_ok n l o G (pcyc n b a) A (is_perm_pcyc n b a ltac:(lia) ltac:(lia)) N0 N1)) as (B & C & K).
  exists B, C. split; [auto|]. split; [auto|]. exact K.
Qed.

Lemma transp_overload n l o a b A : is_part n l -> 1 <= n -> irr_new l = Ret o -> 1 <= a <= n -> 1 <= b <= n -> m_n0 A = io_d o -> 0 <= m_n1 A ->
  exists t B C, p_transposition n a b = Ret t /\ act_transp (irr_apply o) (mkTransp a b) A = Ret B /\ irr_apply_perm o t A = Ret C /\
    m_n0 B = io_d o /\ m_n1 B = m_n1 A /\ m_n0 C = io_d o /\ m_n1 C = m_n1 A /\ agree (io_d o) (m_n1 A) (m_at B) (m_at C).
Proof.
  intros P Hn E Ha Hb N0 N1. pose proof (irr_new_good n l o P Hn E) as G. exists (ptransp n a b).
  destruct (same_moved _ _ _ _ _ _ (apply_transp_ok n l o G a b A Ha Hb N0 N1) (apply_perm_ok n l o G (ptransp n a b) A (is_perm_ptransp n a b Ha Hb) N0 N1)) as (B & C & K).
  exists B, C. split; [apply p_transposition_ok; auto|exact K].
Qed.

(* ---- SnIrrep::transp ---- *)

Lemma wtr_le i j : i <= j -> wcyc i j ++ zrange (i + 1) j = wtr i j.
Proof.
  intros H. unfold wtr, wcyc. replace (Z.min i j) with i by lia. replace (Z.max i j) with j by lia. destruct (Z.ltb_spec i j); [reflexivity|].
  assert (i = j) by lia. subst j. rewrite cyc_nil by lia. rewrite zrange_nil by lia. reflexivity.
Qed.

Lemma irr_transp_word o i j : irr_transp o (mkTransp i j) = foldM (irr_apply o) (wcyc i j ++ zrange (i + 1) j) (mident (io_d o)).
Proof.
  unfold irr_transp. cbn [tr_i tr_j]. rewrite act_cycle_word. rewrite foldM_app. destruct (foldM (irr_apply o) (wcyc i j) (mident (io_d o))); reflexivity.
Qed.

Lemma transp_ordered n l o i j : is_part n l -> 1 <= n -> irr_new l = Ret o -> 1 <= i -> i <= j -> j <= n ->
  exists t M N, p_transposition n i j = Ret t /\ irr_transp o (mkTransp i j) = Ret M /\ irr_matrix o t = Ret N /\
    m_n0 M = io_d o /\ m_n1 M = io_d o /\ agree (io_d o) (io_d o) (m_at M) (m_at N).
Proof.
  intros P Hn E Hi Hj Hjn. pose proof (irr_new_good n l o P Hn E) as G. rewrite irr_transp_word, wtr_le by auto. rewrite <- act_transp_word.
  destruct (transp_overload n l o i j (mident (io_d o)) P Hn E ltac:(lia) ltac:(lia) eq_refl (io_d_nonneg o)) as (t & B & C & Et & EB & EC & B0 & B1 & C0 & C1 & V).
  exists t, B, C. repeat (split; [auto|]). exact V.
Qed.

Lemma transp_reversed_is_cycle n l o i j : is_part n l -> 1 <= n -> irr_new l = Ret o -> 1 <= j -> j < i -> i <= n ->
  exists c M N, p_contiguous_cycle n i j = Ret c /\ irr_transp o (mkTransp i j) = Ret M /\ irr_matrix o c = Ret N /\
    m_n0 M = io_d o /\ m_n1 M = io_d o /\ agree (io_d o) (io_d o) (m_at M) (m_at N).
Proof.
  intros P Hn E Hi Hj Hjn. pose proof (irr_new_good n l o P Hn E) as G. rewrite irr_transp_word. rewrite (zrange_nil (i + 1) j) by lia. rewrite app_nil_r, <- act_cycle_word.
  destruct (cycle_overload n l o i j (mident (io_d o)) P Hn E ltac:(lia) ltac:(lia) eq_refl (io_d_nonneg o)) as (t & B & C & Et & EB & EC & B0 & B1 & C0 & C1 & V).
  exists t, B, C. repeat (split; [auto|]). exact V.
Qed.

(* the single tableau of a column shape *)
Lemma transp_reversed_wrong : exists o M N, irr_new [1;1;1] = Ret o /\ io_d o = 1 /\ irr_transp o (mkTransp 3 1) = Ret M /\
  irr_matrix o [3;2;1] = Ret N /\ m_at M 0 0 = 1%R /\ m_at N 0 0 = (-1)%R.
Proof.
  assert (is_part 3 [1;1;1]) as P by (apply decb_part; reflexivity).
  destruct (irr_new_ok 3 [1;1;1] P ltac:(lia)) as (o & E & G). exists o.
  assert (io_tabs o = [[[1];[2];[3]]]) as Et by (destruct G as (_ & _ & _ & _ & ->); vm_compute; reflexivity).
  assert (io_d o = 1) as Ed by (unfold io_d; rewrite Et; reflexivity).
  assert (forall tau f, 1 <= tau < 3 -> TT tau f (tb o 0) = (- f (tb o 0))%R) as Hs.
  { intros tau f Ht. unfold TT. assert (del tau (tb o 0) = -1) as Dl by (unfold tb; rewrite Et; assert (tau = 1 \/ tau = 2) as [-> | ->] by lia; vm_compute; reflexivity).
    rewrite Dl, Sd_1 by lia. unfold Dd. field. }
  assert (forall w f, (forall j, In j w -> 1 <= j < 3) -> aw TT w f (tb o 0) = fold_right (fun _ x => (- x)%R) (f (tb o 0)) w) as Hw.
  { intros w. induction w as [|j w IH] using rev_ind; intros f H; [reflexivity|]. rewrite aw_app. unfold aw at 1; cbn [fold_left]. rewrite Hs by (apply H; apply in_or_app; right; left; auto).
    rewrite IH by (intros; apply H; apply in_or_app; left; auto). rewrite fold_right_app. cbn [fold_right].
    generalize (f (tb o 0)). clear. induction w as [|j w IH]; intros r; [reflexivity|]. cbn [fold_right]. rewrite IH. reflexivity. }
  assert (forall w, (forall j, In j w -> 1 <= j < 3) -> exists M, foldM (irr_apply o) w (mident (io_d o)) = Ret M /\ m_at M 0 0 = fold_right (fun _ x => (- x)%R) 1%R w) as K.
  { intros w H. destruct (acts_word 3 [1;1;1] o G _ _ _ _ (acts_mat 3 [1;1;1] o G (io_d o) (io_d_nonneg o)) w (mident (io_d o)) H (conj eq_refl eq_refl)) as (M & EM & _ & V).
    exists M. split; auto. rewrite (V 0 0) by lia. rewrite Ed. cbn [incols Z.leb Z.ltb andb Z.compare]. rewrite Hw by auto.
    rewrite (fcol_tb 3 [1;1;1] o G) by lia. reflexivity. }
  destruct (K [1; 2]) as (M & EM & VM); [intros j [<-|[<-|[]]]; lia|].
  destruct (K [1; 2; 1]) as (N & EN & VN); [intros j [<-|[<-|[<-|[]]]]; lia|].
  exists M, N. split; auto. split; auto. split; [rewrite irr_transp_word; exact EM|]. split.
  - unfold irr_matrix, irr_apply_perm. replace (io_n o) with 3 by (symmetry; apply G). rewrite act_perm_word; [exact EN|lia|apply (check_is_perm [3;2;1]); reflexivity].
  - rewrite VM, VN. cbn [fold_right]. split; ring.
Qed.
