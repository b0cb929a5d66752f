(* The actions on views: statements for C40. *)
From Coq Require Import ZArith List Bool Lia ZifyBool ZifyNat Reals Lra.
From Verif Require Import Model_Base Model_Perm Model_Sn Model_Part Model_Comb Model_Tab Model_Irrep.
From Verif Require Import Spec_Perm Spec_Part Spec_Tab Spec_Rep Spec_Four.
From Verif Require Import Proof_Base Proof_Perm Proof_Sn Proof_Part Proof_PartProps Proof_Tab Proof_TabProps Proof_Cycles Proof_Cox Proof_Yor Proof_Sum
  Proof_Irrep Proof_Rep Proof_Mat Proof_IrrepProps Proof_View.
Import ListNotations.
Open Scope Z_scope.

(* ---- middle index ---- *)

Lemma moved_mid_matrix n l o p T r : good n l o -> is_perm n p -> moved_mid n o p T r ->
  exists M T', irr_matrix o p = Ret M /\ r = Ret T' /\ t_n0 T' = t_n0 T /\ t_n1 T' = t_n1 T /\ t_n2 T' = t_n2 T /\
    forall a i b, 0 <= a < t_n0 T -> 0 <= i < io_d o -> 0 <= b < t_n2 T ->
      t_at T' a i b = rsum (io_d o) (fun k => (m_at M i k * t_at T a k b)%R).
Proof.
  intros G Pp (T' & ET & (D0 & D1 & D2) & V).
  destruct (matrix_ok n l o G p Pp) as (M & EM & _ & _ & VM). exists M, T'. split; auto. split; auto. split; auto. split; auto. split; auto.
  intros a i b Ha Hi Hb. rewrite V by auto. apply rsum_ext. intros k Hk. rewrite VM by auto. reflexivity.
Qed.

Lemma mid_action n l o p T : is_part n l -> 1 <= n -> irr_new l = Ret o -> is_perm n p -> t_n1 T = io_d o -> 0 <= t_n0 T -> 0 <= t_n2 T ->
  exists M T', irr_matrix o p = Ret M /\ irr_mid_perm o p T = Ret T' /\ t_n0 T' = t_n0 T /\ t_n1 T' = t_n1 T /\ t_n2 T' = t_n2 T /\
    forall a i b, 0 <= a < t_n0 T -> 0 <= i < io_d o -> 0 <= b < t_n2 T ->
      t_at T' a i b = rsum (io_d o) (fun k => (m_at M i k * t_at T a k b)%R).
Proof.
  intros P Hn E Pp N1 H0 H2. pose proof (irr_new_good n l o P Hn E) as G. apply (moved_mid_matrix n l); auto. apply (mid_perm_ok n l); auto.
Qed.

Lemma mid_cycle_action n l o a b T : is_part n l -> 1 <= n -> irr_new l = Ret o -> 1 <= a <= n -> 1 <= b <= n -> t_n1 T = io_d o -> 0 <= t_n0 T -> 0 <= t_n2 T ->
  exists c M T', p_contiguous_cycle n a b = Ret c /\ irr_matrix o c = Ret M /\ irr_mid_cycle o (mkCyc a b) T = Ret T' /\
    t_n0 T' = t_n0 T /\ t_n1 T' = t_n1 T /\ t_n2 T' = t_n2 T /\
    forall x i y, 0 <= x < t_n0 T -> 0 <= i < io_d o -> 0 <= y < t_n2 T ->
      t_at T' x i y = rsum (io_d o) (fun k => (m_at M i k * t_at T x k y)%R).
Proof.
  intros P Hn E Ha Hb N1 H0 H2. pose proof (irr_new_good n l o P Hn E) as G.
  destruct (moved_mid_matrix n l o (pcyc n a b) T (irr_mid_cycle o (mkCyc a b) T)) as (M & T' & K); auto; [apply is_perm_pcyc; auto|apply (mid_cycle_ok n l); auto|].
  exists (pcyc n a b), M, T'. split; [apply p_contiguous_cycle_ok; auto|exact K].
Qed.

Lemma mid_transp_action n l o a b T : is_part n l -> 1 <= n -> irr_new l = Ret o -> 1 <= a <= n -> 1 <= b <= n -> t_n1 T = io_d o -> 0 <= t_n0 T -> 0 <= t_n2 T ->
  exists c M T', p_transposition n a b = Ret c /\ irr_matrix o c = Ret M /\ irr_mid_transp o (mkTransp a b) T = Ret T' /\
    t_n0 T' = t_n0 T /\ t_n1 T' = t_n1 T /\ t_n2 T' = t_n2 T /\
    forall x i y, 0 <= x < t_n0 T -> 0 <= i < io_d o -> 0 <= y < t_n2 T ->
      t_at T' x i y = rsum (io_d o) (fun k => (m_at M i k * t_at T x k y)%R).
Proof.
  intros P Hn E Ha Hb N1 H0 H2. pose proof (irr_new_good n l o P Hn E) as G.
  destruct (moved_mid_matrix n l o (ptransp n a b) T (irr_mid_transp o (mkTransp a b) T)) as (M & T' & K); auto; [apply is_perm_ptransp; auto|apply (mid_transp_ok n l); auto|].
  exists (ptransp n a b), M, T'. split; [apply p_transposition_ok; auto|exact K].
Qed.

(* ---- first index ---- *)

Lemma pairs_nest n l o tau : good n l o -> 1 <= tau < n -> pairs_overlap (io_tabs o) tau -> nest o tau.
Proof.
  intros G Ht H i i' Hi Hi' Fi Fi'.
  assert (forall r, 0 <= r < io_d o -> r < ptn o tau r -> exchanged tau (znth (io_tabs o) r []) (znth (io_tabs o) (ptn o tau r) [])) as X.
  { intros r Hr Fr. fold (tb o r). fold (tb o (ptn o tau r)). rewrite (tb_ptn n l o tau G Ht r Hr).
    - apply exchanged_tswap.
    - destruct (adj (del tau (tb o r))) eqn:A; auto. unfold ptn in Fr. rewrite A in Fr. lia. }
  pose proof (ptn_range n l o tau G Ht i Hi). pose proof (ptn_range n l o tau G Ht i' Hi').
  assert (Z.to_nat i' < Z.to_nat (ptn o tau i))%nat as K; [|lia].
  apply (H (Z.to_nat i) (Z.to_nat (ptn o tau i)) (Z.to_nat i') (Z.to_nat (ptn o tau i'))); try (unfold io_d, zlen in *; lia); apply X; auto.
Qed.

Lemma moved_view_matrix n l o p T r : good n l o -> is_perm n p -> moved_view n o p T r ->
  exists M T', irr_matrix o p = Ret M /\ r = Ret T' /\ t_n0 T' = t_n0 T /\ t_n1 T' = t_n1 T /\ t_n2 T' = t_n2 T /\
    forall i a b, 0 <= i < io_d o -> t_at T' i a b = rsum (io_d o) (fun k => (m_at M i k * t_at T k a b)%R).
Proof.
  intros G Pp (T' & ET & (D0 & D1 & D2) & V).
  destruct (matrix_ok n l o G p Pp) as (M & EM & _ & _ & VM). exists M, T'. split; auto. split; auto. split; auto. split; auto. split; auto.
  intros i a b Hi. rewrite V by auto. apply rsum_ext. intros k Hk. rewrite VM by auto. reflexivity.
Qed.

Lemma view_action n l o p T : is_part n l -> 1 <= n -> irr_new l = Ret o -> (forall tau, 1 <= tau < n -> pairs_overlap (io_tabs o) tau) ->
  is_perm n p -> t_n0 T = io_d o ->
  exists M T', irr_matrix o p = Ret M /\ irr_view_perm o p T = Ret T' /\ t_n0 T' = t_n0 T /\ t_n1 T' = t_n1 T /\ t_n2 T' = t_n2 T /\
    forall i a b, 0 <= i < io_d o -> t_at T' i a b = rsum (io_d o) (fun k => (m_at M i k * t_at T k a b)%R).
Proof.
  intros P Hn E N Pp N0. pose proof (irr_new_good n l o P Hn E) as G. apply (moved_view_matrix n l); auto. apply (view_perm_ok n l); auto.
  intros tau Ht. apply (pairs_nest n l); auto.
Qed.

Lemma view_cycle_action n l o a b T : is_part n l -> 1 <= n -> irr_new l = Ret o -> (forall tau, 1 <= tau < n -> pairs_overlap (io_tabs o) tau) ->
  1 <= a <= n -> 1 <= b <= n -> t_n0 T = io_d o ->
  exists c M T', p_contiguous_cycle n a b = Ret c /\ irr_matrix o c = Ret M /\ irr_view_cycle o (mkCyc a b) T = Ret T' /\
    t_n0 T' = t_n0 T /\ t_n1 T' = t_n1 T /\ t_n2 T' = t_n2 T /\
    forall i x y, 0 <= i < io_d o -> t_at T' i x y = rsum (io_d o) (fun k => (m_at M i k * t_at T k x y)%R).
Proof.
  intros P Hn E N Ha Hb N0. pose proof (irr_new_good n l o P Hn E) as G.
  destruct (moved_view_matrix n l o (pcyc n a b) T (irr_view_cycle o (mkCyc a b) T)) as (M & T' & K); auto; [apply is_perm_pcyc; auto| |].
  - apply (view_cycle_ok n l); auto. intros tau Ht. apply (pairs_nest n l); auto.
  - exists (pcyc n a b), M, T'. split; [apply p_contiguous_cycle_ok; auto|exact K].
Qed.

Lemma view_transp_action n l o a b T : is_part n l -> 1 <= n -> irr_new l = Ret o -> (forall tau, 1 <= tau < n -> pairs_overlap (io_tabs o) tau) ->
  1 <= a <= n -> 1 <= b <= n -> t_n0 T = io_d o ->
  exists c M T', p_transposition n a b = Ret c /\ irr_matrix o c = Ret M /\ irr_view_transp o (mkTransp a b) T = Ret T' /\
    t_n0 T' = t_n0 T /\ t_n1 T' = t_n1 T /\ t_n2 T' = t_n2 T /\
    forall i x y, 0 <= i < io_d o -> t_at T' i x y = rsum (io_d o) (fun k => (m_at M i k * t_at T k x y)%R).
Proof.
  intros P Hn E N Ha Hb N0. pose proof (irr_new_good n l o P Hn E) as G.
  destruct (moved_view_matrix n l o (ptransp n a b) T (irr_view_transp o (mkTransp a b) T)) as (M & T' & K); auto; [apply is_perm_ptransp; auto| |].
  - apply (view_transp_ok n l); auto. intros tau Ht. apply (pairs_nest n l); auto.
  - exists (ptransp n a b), M, T'. split; [apply p_transposition_ok; auto|exact K].
Qed.

(* every shape of at most 4 boxes has the property *)
Definition exchangedb (tau : Z) (t t' : list (list Z)) : bool :=
  if list_eq_dec (list_eq_dec Z.eq_dec) t' (map (map (fun v => if Z.eq_dec v tau then tau + 1 else if Z.eq_dec v (tau + 1) then tau else v)) t) then true else false.
Definition overlapb (tabs : list (list (list Z))) (tau : Z) : bool :=
  let r := seq 0 (length tabs) in
  let ps := filter (fun ij => Nat.ltb (fst ij) (snd ij) && exchangedb tau (nth (fst ij) tabs []) (nth (snd ij) tabs [])) (list_prod r r) in
  forallb (fun p => forallb (fun p' => Nat.ltb (fst p') (snd p)) ps) ps.

Lemma overlapb_ok tabs tau : overlapb tabs tau = true -> pairs_overlap tabs tau.
Proof.
  unfold overlapb. intros H i j i' j' Hi Hi' X X'.
  assert (forall a b, (a < b < length tabs)%nat -> exchanged tau (nth a tabs []) (nth b tabs []) ->
    In (a, b) (filter (fun ij => Nat.ltb (fst ij) (snd ij) && exchangedb tau (nth (fst ij) tabs []) (nth (snd ij) tabs [])) (list_prod (seq 0 (length tabs)) (seq 0 (length tabs))))) as I.
  { intros a b Hab Y. apply filter_In. split; [apply in_prod; apply in_seq; lia|]. cbn [fst snd]. unfold exchangedb, exchanged in *.
    destruct (list_eq_dec _ _ _); [|contradiction]. apply andb_true_iff. split; auto. apply Nat.ltb_lt. lia. }
  rewrite forallb_forall in H. specialize (H (i, j) (I i j Hi X)). rewrite forallb_forall in H. specialize (H (i', j') (I i' j' Hi' X')).
  cbn [fst snd] in H. apply Nat.ltb_lt in H. exact H.
Qed.

Lemma small_overlap n l o tau : is_part n l -> 1 <= n <= 4 -> irr_new l = Ret o -> 1 <= tau < n -> pairs_overlap (io_tabs o) tau.
Proof.
  intros P Hn E Ht. apply overlapb_ok.
  assert (forall k, (k < 4)%nat -> forallb (fun l => match irr_new l with Ret o => forallb (overlapb (io_tabs o)) (zrange 1 (Z.of_nat k + 1)) | _ => false end) (plist k) = true) as C.
  { intros k Hk. do 4 (destruct k as [|k]; [vm_compute; reflexivity|]). lia. }
  specialize (C (Z.to_nat (n - 1)) ltac:(lia)). rewrite forallb_forall in C. specialize (C l). rewrite E in C. rewrite plist_spec in C.
  replace (Z.of_nat (Z.to_nat (n - 1)) + 1) with n in C by lia. specialize (C P). rewrite forallb_forall in C. apply C. apply in_zrange. lia.
Qed.

(* with 5 boxes the plan misses pairs *)
Definition ident5 : ten := mkTen 5 5 1 (fun i j _ => if i =? j then 1%R else 0%R).

Lemma view_misses_pairs : exists o T' M, is_part 5 [3;2] /\ irr_new [3;2] = Ret o /\ io_d o = 5 /\
  irr_apply_view o 2 ident5 = Ret T' /\ irr_apply o 2 (mident 5) = Ret M /\
  t_at T' 0 0 0 = 0%R /\ m_at M 0 0 = 1%R /\ t_at T' 3 3 0 = 1%R /\ m_at M 3 3 = (- / 2)%R.
Proof.
  eexists. eexists. eexists. split; [apply decb_part; reflexivity|]. split; [vm_compute; reflexivity|]. split; [reflexivity|].
  split; [lazy -[IZR sqrt Rdiv Rminus Rplus Rmult Rinv]; reflexivity|]. split; [lazy -[IZR sqrt Rdiv Rminus Rplus Rmult Rinv]; reflexivity|].
  split; [|split; [|split]]; lazy -[IZR sqrt Rdiv Rminus Rplus Rmult Rinv Ropp]; try lra.
Qed.
