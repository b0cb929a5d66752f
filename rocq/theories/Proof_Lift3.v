(* Every vector with the parts of a transform on Sn/Sm is one, and the formula for the inverse transform. *)
From Coq Require Import ZArith List Bool Lia ZifyBool ZifyNat Reals Lra Sorted Permutation.
From Verif Require Import Model_Base Model_Perm Model_Sn Model_Part Model_Comb Model_Tab Model_Irrep Model_Type Model_Fun Model_FFT.
From Verif Require Import Spec_Perm Spec_Part Spec_Tab Spec_Rep Spec_Four Spec_Fun Spec_FFT Spec_Lift.
From Verif Require Import Proof_Base Proof_Perm Proof_Sn Proof_SnProps Proof_Part Proof_PartProps Proof_Tab Proof_TabProps Proof_Cycles Proof_Cox Proof_Yor Proof_Sum
  Proof_Irrep Proof_Rep Proof_Mat Proof_IrrepProps Proof_JM Proof_Conn Proof_Schur Proof_Restr Proof_UpDown Proof_Complete Proof_View Proof_ViewProps
  Proof_Fun Proof_FFTlay Proof_FFTblk Proof_FFTact Proof_FFTstep Proof_FFTmath Proof_FFT Proof_FFTprops Proof_FFTprops2 Proof_FFTlay2 Proof_FFTquo Proof_Kron Proof_Dot Proof_Triv Proof_Lift Proof_CG Proof_Lift2.
Import ListNotations.
Open Scope Z_scope.

(* the columns of the tableaux with 1..m in the first row do not see Sm *)
Section Inv.
  Variable m : Z.
  Hypothesis Hm : 1 <= m.
  Local Notation lv k := (m + Z.of_nat k).
  Lemma coset_inv k : forall l i y x, In l (qlist m (lv k)) -> 0 <= i < io_d (mkirr (lv k) l) -> 0 <= y < mlt m k l -> 0 <= x < zfact (lv k) ->
    rr (lv k) l (pinv (elt (Z.to_nat (lv k)) x)) i (emb m k l y) = rr (lv k) l (pinv (elt (Z.to_nat (lv k)) (x / zfact m * zfact m))) i (emb m k l y).
  Proof.
    pose proof (zfact_pos m) as ZM. induction k as [|k IH]; intros l i y x Hl Hi Hy Hx.
    - replace (lv 0) with m in * by lia. rewrite qlist_seed in Hl by auto. destruct Hl as [<-|[]]. rewrite d_row in Hi by auto. rewrite mlt_0 in Hy. replace y with 0 by lia. replace i with 0 by lia. change (emb m 0 [m] 0) with 0.
      rewrite Z.div_small by auto. rewrite !rr_row; auto; apply is_perm_pinv; apply is_perm_elt_z; lia.
    - destruct (jof_find m k l y Hy) as (r & c & Hr & Hc & ->). rewrite emb_block by auto. destruct (subs_qlist m Hm k l r Hl Hr) as (Hq & Hc'). pose proof (proj1 (in_qlist m (lv (S k)) l ltac:(lia)) Hl) as (P & _).
      pose proof (zfact_pos (lv k)) as ZK. pose proof (ncos_fact m Hm k) as NF. pose proof (ncos_pos m Hm k) as NP. set (j := x / zfact (lv k)). set (e := x mod zfact (lv k)).
      assert (x = j * zfact (lv k) + e) as Ex by (unfold j, e; pose proof (Z.div_mod x (zfact (lv k)) ltac:(lia)); lia). assert (0 <= e < zfact (lv k)) as He by (apply Z.mod_pos_bound; lia).
      assert (0 <= j < lv (S k)) as Hj. { rewrite (zfact_step (lv (S k))) in Hx by lia. replace (lv (S k) - 1) with (lv k) in Hx by lia. split; [apply Z.div_pos; lia|apply Z.div_lt_upper_bound; lia]. }
      assert (x / zfact m * zfact m = j * zfact (lv k) + e / zfact m * zfact m) as ->.
      { rewrite Ex at 1. rewrite <- NF. replace (j * (ncos m k * zfact m) + e) with (e + j * ncos m k * zfact m) by ring. rewrite Z.div_add by lia. ring. }
      assert (0 <= e / zfact m * zfact m < zfact (lv k)) as He'. { pose proof (Z.div_mod e (zfact m) ltac:(lia)). pose proof (Z.mod_pos_bound e (zfact m) ltac:(lia)). pose proof (Z.div_pos e (zfact m)). nia. }
      rewrite Ex. clear Ex. replace (lv (S k)) with (lv k + 1) in * by lia. rewrite !pinv_elt_split by lia. pose proof (emb_range m Hm k _ c Hq Hc) as Re.
      rewrite !rr_sub; auto; try lia; try (apply is_perm_pcyc; lia); try (apply is_perm_pinv; apply is_perm_elt_z; lia).
      apply rsum_ext. intros a Ha. rewrite (IH (prem l r) a c e) by auto. reflexivity.
  Qed.
End Inv.

Section Onto.
  Variables (act : irr -> ccycle -> ten -> outcome ten) (n m : Z).
  Hypothesis GA : good_act act n.
  Hypothesis Hm : 1 <= m < n.
  Let K := Z.to_nat (n - m).
  Local Lemma EK2 : m + Z.of_nat K = n. Proof. unfold K. lia. Qed.
  Local Lemma HAK2 k : (0 < k <= K)%nat -> act_ok act (m + Z.of_nat k).
  Proof. intros H. apply GA. pose proof EK2. lia. Qed.

  Section Given.
    Variable W : list Z -> Z -> Z -> R.
    Definition Wf (l : list Z) (a b : Z) : R := if m <=? row l 0 then if in_dec Z.eq_dec b (embl m K l) then (IZR (zfact m) * W l a (idx b (embl m K l)))%R else 0%R else 0%R.
    Definition gw (p : list Z) : R := lsum (qlist m n) (fun l => dimR n l * IZR (zfact m) / IZR (zfact n) * rsum (io_d (mkirr n l)) (fun a => rsum (mlt m K l) (fun y => W l a y * rr n l p (emb m K l y) a)))%R.
    Definition vw : list R := map (fun e => gw (elt (Z.to_nat n) (e * zfact m))) (zrange 0 (ncos m K)).

    Lemma emb_in l y : 0 <= y < mlt m K l -> In (emb m K l y) (embl m K l).
    Proof. intros Hy. unfold emb, znth. apply nth_In. rewrite <- zlen_embl in Hy. unfold zlen in Hy. lia. Qed.

    Lemma NoDup_embl l : In l (qlist m n) -> NoDup (embl m K l).
    Proof.
      intros Hl. rewrite <- EK2 in Hl. apply (NoDup_nth _ 0). intros a b Ha Hb E. destruct (Nat.lt_trichotomy a b) as [C|[C|C]]; auto; exfalso; [pose proof (proj1 (embl_columns m ltac:(lia) K l Hl) a b ltac:(lia))|pose proof (proj1 (embl_columns m ltac:(lia) K l Hl) b a ltac:(lia))]; lia.
    Qed.

    Lemma Wf_emb l a y : In l (qlist m n) -> 0 <= y < mlt m K l -> Wf l a (emb m K l y) = (IZR (zfact m) * W l a y)%R.
    Proof.
      intros Hl Hy. unfold Wf. pose proof (proj1 (in_qlist m n l ltac:(lia)) Hl) as (_ & R0). destruct (Z.leb_spec m (row l 0)); [|lia]. destruct (in_dec Z.eq_dec _ _) as [_|N]; [|exfalso; apply N; apply emb_in; auto].
      unfold emb. rewrite idx_znth; auto; [apply NoDup_embl; auto|rewrite zlen_embl; auto].
    Qed.

    Lemma gw_ifour p : gw p = ifour n Wf p.
    Proof.
      unfold gw, ifour, qlist. rewrite lsum_filter. apply lsum_ext. intros l Hl. apply in_parts_n in Hl; [|lia]. pose proof (zfact_pos n) as ZN. assert (IZR (zfact n) <> 0)%R as Nn by (apply not_0_IZR; lia). destruct (Z.leb_spec m (row l 0)) as [R0|R0].
      - assert (In l (qlist m n)) as Hq by (apply in_qlist; auto; lia). transitivity (dimR n l / IZR (zfact n) * (IZR (zfact m) * rsum (io_d (mkirr n l)) (fun a => rsum (mlt m K l) (fun y => W l a y * rr n l p (emb m K l y) a))))%R; [field; auto|].
        f_equal. rewrite <- rsum_scal. apply rsum_ext. intros a Ha. rewrite (sum_cols n m Hm l); auto.
        + fold K. rewrite <- rsum_scal. apply rsum_ext. intros y Hy. rewrite Wf_emb by auto. ring.
        + intros c Hc Nc. unfold Wf. fold K in Nc. destruct (in_dec _ _ _); [contradiction|]. destruct (m <=? row l 0); ring.
      - symmetry. rewrite rsum_lsum. rewrite lsum_0; [ring|]. intros a _. rewrite rsum_lsum. apply lsum_0. intros b _. unfold Wf. destruct (Z.leb_spec m (row l 0)); [lia|ring].
    Qed.

    Lemma gw_inv p : is_perm n p -> gw p = gw (elt (Z.to_nat n) (idn (Z.to_nat n) p / zfact m * zfact m)).
    Proof.
      intros P. pose proof (idn_range n p P) as R. pose proof (zfact_pos m) as ZM. assert (0 <= idn (Z.to_nat n) p / zfact m * zfact m < zfact n) as R'.
      { pose proof (Z.div_mod (idn (Z.to_nat n) p) (zfact m) ltac:(lia)). pose proof (Z.mod_pos_bound (idn (Z.to_nat n) p) (zfact m) ltac:(lia)). pose proof (Z.div_pos (idn (Z.to_nat n) p) (zfact m)). nia. }
      unfold gw. apply lsum_ext. intros l Hl. f_equal. apply rsum_ext. intros a Ha. apply rsum_ext. intros y Hy. f_equal. pose proof (proj1 (in_qlist m n l ltac:(lia)) Hl) as (PL & _).
      assert (0 <= emb m K l y < io_d (mkirr n l)) as Hy' by (rewrite <- EK2; apply emb_range; [lia|rewrite EK2; auto|auto]).
      pose proof (coset_inv m ltac:(lia) K l a y (idn (Z.to_nat n) p)) as C. rewrite EK2 in C. specialize (C Hl Ha Hy R). rewrite elt_idn_z in C by auto.
      destruct (mkirr_ok n l PL ltac:(lia)) as (_ & G). unfold rr in *. rewrite !(rho_inv n l _ G) in C by (auto; apply is_perm_elt_z; lia). exact C.
    Qed.

    Lemma zlen_vw : zlen vw = ncos m K.
    Proof. unfold vw. rewrite zlen_map, zlen_zrange. pose proof (ncos_pos m ltac:(lia) K). lia. Qed.

    Lemma vw_at e : 0 <= e < ncos m K -> znth vw e 0%R = gw (elt (Z.to_nat n) (e * zfact m)).
    Proof. intros He. unfold vw. rewrite (znth_map _ _ _ 0) by (rewrite zlen_zrange; lia). rewrite znth_zrange by lia. rewrite Z.add_0_l. reflexivity. Qed.

    Lemma vw_lifts : lifts n m vw (of_fun n gw).
    Proof.
      intros p i P E. rewrite snsm_index_ok in E by (auto; lia). apply Ret_inj in E. subst i. rewrite (sf_at_ok n) by (auto using of_fun_is; lia). f_equal. rewrite of_fun_at by auto. rewrite gw_inv by auto.
      pose proof (idn_range n p P) as R. pose proof (zfact_pos m) as ZM. pose proof (ncos_fact m ltac:(lia) K) as NF. rewrite EK2 in NF. symmetry. apply vw_at. split; [apply Z.div_pos; lia|apply Z.div_lt_upper_bound; lia].
    Qed.

    Lemma four_vw l i y : In l (qlist m n) -> 0 <= i < io_d (mkirr n l) -> 0 <= y < mlt m K l -> fourV m (fun e => znth vw e 0%R) K l i 0 y = W l i y.
    Proof.
      intros Hl Hi Hy. pose proof (proj1 (in_qlist m n l ltac:(lia)) Hl) as (PL & _). pose proof (zfact_pos m) as ZM. assert (IZR (zfact m) <> 0)%R as Nm by (apply not_0_IZR; lia). apply (Rmult_eq_reg_l (IZR (zfact m))); auto.
      assert (0 <= emb m K l y < io_d (mkirr n l)) as Hy' by (rewrite <- EK2; apply emb_range; [lia|rewrite EK2; auto|auto]).
      rewrite <- full_in by (rewrite ?EK2; auto; lia). pose proof (four_full n m vw (of_fun n gw) l i (emb m K l y) ltac:(lia) (of_fun_is n gw) vw_lifts) as F. fold K in F. rewrite <- F. clear F.
      rewrite (four_ext n _ (ifour n Wf)) by (try lia; intros p P; rewrite of_fun_at, gw_ifour by auto; reflexivity). rewrite four_ifour by (auto; lia). apply Wf_emb; auto.
    Qed.
  End Given.

  Lemma columns_len ts cs cs' : columns_from m ts cs -> columns_from m ts cs' -> length cs = length cs'.
  Proof.
    assert (forall cs, columns_from m ts cs -> NoDup cs) as ND.
    { intros c (S & _). apply (NoDup_nth _ 0). intros a b Ha Hb E. destruct (Nat.lt_trichotomy a b) as [C|[C|C]]; auto; exfalso; [pose proof (S a b ltac:(lia))|pose proof (S b a ltac:(lia))]; lia. }
    intros C C'. apply Nat.le_antisymm; apply NoDup_incl_length; auto; intros x Hx; [apply C'; apply C; auto|apply C; apply C'; auto].
  Qed.

  Lemma F2_choose {B} (R : list Z -> B -> Prop) (d : B) xs ys : NoDup xs -> Forall2 R xs ys -> exists G : list Z -> B, Forall2 (fun x y => G x = y) xs ys.
  Proof.
    intros ND F. induction F as [|x y xs ys _ F IH]; [exists (fun _ => d); constructor|]. inversion ND as [|? ? N ND']; subst. destruct (IH ND') as (G & HG).
    exists (fun z => if list_eq_dec Z.eq_dec z x then y else G z). constructor; [destruct (list_eq_dec Z.eq_dec x x); [auto|contradiction]|].
    eapply F2_impl; [|exact HG]. intros z y' Hz E. cbn beta. destruct (list_eq_dec Z.eq_dec z x) as [->|]; [contradiction|auto].
  Qed.

  Lemma F2_and {A B} (R S : A -> B -> Prop) xs ys : Forall2 R xs ys -> Forall2 S xs ys -> Forall2 (fun x y => R x y /\ S x y) xs ys.
  Proof. intros F. induction F; intros G; inversion G; subst; constructor; auto. Qed.

  Lemma F2_map_self {A B} (f : A -> B) xs : Forall2 (fun x y => y = f x) xs (map f xs).
  Proof. induction xs; constructor; auto. Qed.

  Lemma my_columns l : In l (qlist m n) -> columns_from m (io_tabs (mkirr n l)) (embl m K l).
  Proof. intros Hl. rewrite <- EK2. apply embl_columns; [lia|]. rewrite EK2. auto. Qed.

  Lemma onto_quotient ls w : integer_partitions n = Ret ls -> Forall2 (quotient_shape m) (filter (fun l => m <=? row l 0) ls) w ->
    exists F f w' css, fft_new2 n m = Ret F /\ fft_inv_snsm act F w = Ret f /\ qf_n f = n /\ qf_m f = m /\ snsm_size n m = Ret (Z.of_nat (length (qf_v f))) /\
      fft_forward_q act F f = Ret w' /\ Forall2 same_part w' w /\ Forall2 (part_columns m) w css /\
      forall e s Ms, 0 <= e < Z.of_nat (length (qf_v f)) -> snsm_element n m e = Ret s -> Forall2 (fun P M => irr_matrix (sp_irr P) s = Ret M) w Ms ->
        nth (Z.to_nat e) (qf_v f) 0%R = sum_over (combine w (combine Ms css)) (fun x => IZR (io_d (sp_irr (fst x))) * INR (fact (Z.to_nat m)) / INR (fact (Z.to_nat n)) *
          rsum (m_n0 (sp_mat (fst x))) (fun i => rsum (m_n1 (sp_mat (fst x))) (fun y => m_at (sp_mat (fst x)) i y * m_at (fst (snd x)) (nth (Z.to_nat y) (snd (snd x)) 0%Z) i)))%R.
  Proof.
    intros EL SW. pose proof (proj1 GA) as Hn. rewrite integer_partitions_ok in EL by auto. apply Ret_inj in EL. subst ls. fold (qlist m n) in SW. destruct (F2_choose _ (mkSpart (mkirr n [n]) (mident 0)) _ _ (NoDup_qlist m n) SW) as (Gp & PW).
    set (W := fun l => m_at (sp_mat (Gp l))). set (v := vw W).
    assert (Forall2 (fun l P => sp_irr P = mkirr n l /\ m_n0 (sp_mat P) = io_d (mkirr n l) /\ m_n1 (sp_mat P) = mlt m K l /\ forall i y, m_at (sp_mat P) i y = W l i y) (qlist m n) w) as SH.
    { refine (F2_impl_in _ _ _ _ _ (F2_and _ _ _ _ SW PW)). intros l P Hl _ ((A & cs & (ts & T & C) & B0 & B1) & E). pose proof (proj1 (in_qlist m n l ltac:(lia)) Hl) as (PL & _). destruct (mkirr_ok n l PL Hn) as (EI & _).
      rewrite EI in A. apply Ret_inj in A. rewrite <- A in *. change (io_lambda (mkirr n l)) with l in T. rewrite (yt_mkirr n l PL Hn) in T. apply Ret_inj in T. subst ts. split; auto. split; auto. split.
      - rewrite B1, <- zlen_embl. unfold zlen. f_equal. apply (columns_len _ _ _ C (my_columns l Hl)).
      - intros i y. unfold W. rewrite E. reflexivity. }
    pose proof (zlen_vw W) as Lv. fold v in Lv. assert (snsm_size n m = Ret (zlen v)) as Es.
    { destruct (snsm_size_ok n m ltac:(lia)) as (k & E & Hk). rewrite E, Lv. f_equal. symmetry. apply (ncos_size n m ltac:(lia) _ E). }
    assert (sv_ok m K (fun l i y => fourV m (fun e => znth v e 0%R) K l i 0 y) w) as SV.
    { unfold sv_ok. rewrite EK2. eapply F2_impl; [|exact SH]. intros l P Hl (A & B0 & B1 & V). unfold spart_ok. rewrite EK2. split; auto. split; auto. split; auto. intros i y Hi Hy. rewrite V. symmetry. apply four_vw; auto. }
    destruct (inverse_ok m ltac:(lia) act K HAK2 (fftq n m) eq_refl _ w SV) as (v' & Ev & Lv' & V). assert (v' = v) as -> by (apply (list_ext _ _ 0%R); [lia|]; intros i Hi; apply V; lia). clear V Lv'.
    destruct (forward_q act n m GA ltac:(lia) v Es) as (w' & Ew & SV'). fold K in SV'.
    exists (fftq n m), (mkQfun n m v), w', (map (embl m K) (qlist m n)). split; [apply fft_new2_ok; lia|]. split; [unfold fft_inv_snsm; rewrite Ev; reflexivity|]. split; [reflexivity|]. split; [reflexivity|]. split; [exact Es|]. split; [exact Ew|]. split.
    { unfold sv_ok in SV, SV'. rewrite EK2 in SV, SV'. refine (F2_join _ _ _ _ _ _ _ SV' SV). intros l P Q Hl (A & B & C & D) (A' & B' & C' & D'). rewrite EK2 in *. specialize (A ltac:(unfold K; lia)). specialize (A' ltac:(unfold K; lia)).
      split; [congruence|]. split; [congruence|]. split; [congruence|]. rewrite B, C. intros i j Hi Hj. rewrite D, D' by auto. reflexivity. }
    split.
    { refine (F2_join _ (fun l cs => cs = embl m K l) _ _ _ _ _ SH _).
      - intros l P cs Hl (A & _) ->. pose proof (proj1 (in_qlist m n l ltac:(lia)) Hl) as (PL & _). exists (io_tabs (mkirr n l)). rewrite A. split; [apply yt_mkirr; auto|apply my_columns; auto].
      - apply F2_map_self. }
    cbn [qf_v]. intros e s Ms He Es' FM. fold (zlen v) in He. pose proof He as He'. rewrite Lv in He'. change (nth (Z.to_nat e) v 0%R) with (znth v e 0%R). unfold v. rewrite vw_at by auto. unfold gw.
    pose proof (zfact_pos m) as ZM. pose proof (ncos_fact m ltac:(lia) K) as NF. rewrite EK2 in NF. assert (0 <= e * zfact m < zfact n) as Hx by (rewrite <- NF; nia).
    rewrite snsm_element_ok in Es' by (auto; lia). apply Ret_inj in Es'. assert (is_perm n s) as Ps by (rewrite <- Es'; apply is_perm_elt_z; lia). rewrite Es'.
    change (@sum_over) with (@lsum). apply sum_combine. assert (forall l, In l (qlist m n) -> In l (qlist m n)) as I by auto. revert I SH. generalize (qlist m n) at 1 3 4 5 as X. intros X I SH. clear - I SH FM Ps Hn Hm.
    revert Ms FM I. induction SH as [|l P xs w0 (A & B & C & D) SH IH]; intros Ms FM I; inversion FM as [|? M ? Ms' EM FM']; subst; cbn [map combine]; constructor; [|apply IH; auto; intros; apply I; right; auto].
    cbn [fst snd]. rewrite A, B, C in *. assert (In l (qlist m n)) as Hl by (apply I; left; auto). pose proof (proj1 (in_qlist m n l ltac:(lia)) Hl) as (PL & _). destruct (mkirr_ok n l PL Hn) as (E & Gd).
    destruct (matrix_ok n l _ Gd s Ps) as (M' & EM' & _ & _ & V). rewrite EM in EM'. apply Ret_inj in EM'. subst M'. rewrite <- !zfact_fact by lia. unfold dimR. f_equal. apply rsum_ext. intros a Ha. apply rsum_ext. intros y Hy.
    assert (0 <= emb m K l y < io_d (mkirr n l)) as Hy' by (rewrite <- EK2; apply emb_range; [lia|rewrite EK2; auto|auto]). rewrite D. change (nth (Z.to_nat y) (embl m K l) 0) with (emb m K l y). rewrite V by auto. reflexivity.
  Qed.
End Onto.

Lemma shapes_exist n m ls (V : list Z -> Z -> Z -> R) : 1 <= m < n -> integer_partitions n = Ret ls -> exists w, Forall2 (quotient_shape m) (filter (fun l => m <=? row l 0) ls) w /\ Forall2 (fun l P => forall i y, m_at (sp_mat P) i y = V l i y) (filter (fun l => m <=? row l 0) ls) w.
Proof.
  intros Hm EL. rewrite integer_partitions_ok in EL by lia. apply Ret_inj in EL. subst ls. fold (qlist m n). set (K := Z.to_nat (n - m)).
  exists (map (fun l => mkSpart (mkirr n l) (mkMat (io_d (mkirr n l)) (mlt m K l) (V l))) (qlist m n)). split.
  - eapply F2_impl; [|apply F2_map_self]. intros l P Hl ->. pose proof (proj1 (in_qlist m n l ltac:(lia)) Hl) as (PL & _). split; [apply mkirr_ok; auto; lia|]. exists (embl m K l). split; [|split; [reflexivity|cbn; rewrite <- zlen_embl; reflexivity]].
    exists (io_tabs (mkirr n l)). split; [apply yt_mkirr; auto; lia|apply my_columns; auto].
  - eapply F2_impl; [|apply F2_map_self]. intros l P Hl -> i y. reflexivity.
Qed.

Lemma lift_example : lifts 3 2 [1; 2; 4]%R (mkFun 3 [1; 1; 2; 2; 4; 4]%R).
Proof. pose proof (liftv_lifts 3 2 [1; 2; 4]%R ltac:(lia)) as L. exact L. Qed.
