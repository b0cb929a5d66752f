(* The transforms that the code computes of a function on Sn/Sm and of its lift to Sn; Plancherel's formula on Sn/Sm. *)
From Coq Require Import ZArith List Bool Lia ZifyBool ZifyNat Reals Lra Sorted Permutation.
From Verif Require Import Model_Base Model_Perm Model_Sn Model_Part Model_Comb Model_Tab Model_Irrep Model_Type Model_Fun Model_FFT.
From Verif Require Import Spec_Perm Spec_Part Spec_Tab Spec_Rep Spec_Four Spec_Fun Spec_FFT Spec_Lift.
From Verif Require Import Proof_Base Proof_Perm Proof_Sn Proof_SnProps Proof_Part Proof_PartProps Proof_Tab Proof_TabProps Proof_Cycles Proof_Cox Proof_Yor Proof_Sum
  Proof_Irrep Proof_Rep Proof_Mat Proof_IrrepProps Proof_JM Proof_Conn Proof_Schur Proof_Restr Proof_UpDown Proof_Complete Proof_View Proof_ViewProps
  Proof_Fun Proof_FFTlay Proof_FFTblk Proof_FFTact Proof_FFTstep Proof_FFTmath Proof_FFT Proof_FFTprops Proof_FFTprops2 Proof_FFTlay2 Proof_FFTquo Proof_Kron Proof_Dot Proof_Triv Proof_Lift Proof_CG.
Import ListNotations.
Open Scope Z_scope.

Definition liftv (n m : Z) (v : list R) : sfun := mkFun n (map (fun x => znth v (x / zfact m) 0%R) (zrange 0 (zfact n))).

Lemma liftv_fun n m v : is_fun n (liftv n m v).
Proof. split; [reflexivity|]. cbn [liftv sf_v]. rewrite zlen_map. unfold zlen. rewrite zrange_length. pose proof (zfact_pos n). lia. Qed.

Lemma lifts_fv n m v g p : 1 <= m <= n -> is_fun n g -> lifts n m v g -> is_perm n p -> fv g p = znth v (idn (Z.to_nat n) p / zfact m) 0%R.
Proof.
  intros H IG L P. pose proof (L p _ P (snsm_index_ok n m p ltac:(lia) P)) as E. rewrite (sf_at_ok n) in E by (auto; lia). apply Ret_inj in E. exact E.
Qed.

Lemma liftv_lifts n m v : 1 <= m <= n -> lifts n m v (liftv n m v).
Proof.
  intros H p i P E. rewrite snsm_index_ok in E by (auto; lia). apply Ret_inj in E. subst i. rewrite (sf_at_ok n) by (auto using liftv_fun; lia). f_equal. unfold fv. cbn [liftv sf_n sf_v].
  pose proof (idn_range n p P) as R. rewrite (znth_map _ _ _ 0) by (unfold zlen; rewrite zrange_length; lia). rewrite znth_zrange by lia. reflexivity.
Qed.

Lemma lift_exists n m v : 1 <= m <= n -> exists g, sf_n g = n /\ length (sf_v g) = fact (Z.to_nat n) /\ lifts n m v g.
Proof. intros H. exists (liftv n m v). destruct (is_fun_on n _ (liftv_fun n m v)) as (A & B). split; auto. split; auto. apply liftv_lifts; auto. Qed.

Lemma four_full n m v g l i c : 1 <= m <= n -> is_fun n g -> lifts n m v g -> four n (fv g) l i c = fullV m (fun e => znth v e 0%R) (Z.to_nat (n - m)) l i 0 c.
Proof.
  intros H IG L. unfold four, fullV. replace (m + Z.of_nat (Z.to_nat (n - m))) with n by lia. rewrite <- lsum_elements, rsum_lsum. apply lsum_ext. intros x Hx. apply in_zrange in Hx.
  rewrite (lifts_fv n m v) by (auto; apply is_perm_elt_z; lia). rewrite idn_elt_z by lia. rewrite Z.mul_0_l, Z.add_0_l. reflexivity.
Qed.

Lemma F2_filter {A B} (R : A -> B -> Prop) (b : A -> bool) (b' : B -> bool) xs ys : (forall x y, R x y -> b x = b' y) -> Forall2 R xs ys -> Forall2 R (filter b xs) (filter b' ys).
Proof. intros H F. induction F as [|x y xs ys Hxy F IH]; [constructor|]. cbn [filter]. rewrite <- (H x y Hxy). destruct (b x); [constructor|]; auto. Qed.

Lemma F2_join {A B C} (R : A -> B -> Prop) (S : A -> C -> Prop) (T : B -> C -> Prop) xs ys zs : (forall x y z, In x xs -> R x y -> S x z -> T y z) -> Forall2 R xs ys -> Forall2 S xs zs -> Forall2 T ys zs.
Proof.
  intros H F. revert zs. induction F as [|x y xs ys Hxy F IH]; intros zs G; inversion G; subst; constructor; [apply (H x); auto; left; auto|]. apply IH; auto. intros; apply (H x0); auto. right; auto.
Qed.

Lemma Forall2_in_r {A B} (R : A -> B -> Prop) l l' y : Forall2 R l l' -> In y l' -> exists x, In x l /\ R x y.
Proof. intros F. induction F; intros []; subst; eauto using in_eq, in_cons. destruct IHF as (x0 & ? & ?); auto. exists x0. split; auto. right; auto. Qed.

Section Code.
  Variables (act : irr -> ccycle -> ten -> outcome ten) (n m : Z).
  Hypothesis GA : good_act act n.
  Hypothesis Hm : 1 <= m < n.
  Let K := Z.to_nat (n - m).
  Local Lemma EK' : m + Z.of_nat K = n. Proof. unfold K. lia. Qed.

  Lemma out_cols l c : In l (qlist m n) -> 0 <= c < io_d (mkirr n l) -> ~ In c (embl m K l) -> ~ first_row_has m (tb (mkirr n l) c).
  Proof.
    intros Hl Hc N F. apply N. rewrite <- EK' in Hl, F, Hc. destruct (embl_columns m ltac:(lia) K l Hl) as (_ & I). apply I. exists (tb (mkirr (m + Z.of_nat K) l) c). split; [lia|]. split; auto.
    unfold tb, znth. apply nth_error_nth'. unfold io_d, zlen in Hc. lia.
  Qed.

  Lemma lift_transform f g : qf_n f = n -> qf_m f = m -> snsm_size n m = Ret (Z.of_nat (length (qf_v f))) -> sf_n g = n -> length (sf_v g) = fact (Z.to_nat n) -> lifts n m (qf_v f) g ->
    exists F Fq w wq, fft_new n = Ret F /\ fft_new2 n m = Ret Fq /\ fft_forward act F g = Ret w /\ fft_forward_q act Fq f = Ret wq /\
      Forall2 (lifted_part m) (filter (fun P => m <=? row (io_lambda (sp_irr P)) 0) w) wq /\
      forall P, In P w -> row (io_lambda (sp_irr P)) 0 < m -> forall i c, 0 <= i < m_n0 (sp_mat P) -> 0 <= c < m_n1 (sp_mat P) -> m_at (sp_mat P) i c = 0%R.
  Proof.
    intros _ _ E A B L. pose proof (fun_on_is n g A B) as IG. destruct GA as (Hn & HA). destruct (forward_n act n Hn HA g IG) as (w & Ew & W). destruct (forward_q act n m GA ltac:(lia) (qf_v f) E) as (wq & Eq & Wq). fold K in Wq.
    exists (fftn n), (fftq n m), w, wq. split; [apply fft_new_ok; auto|]. split; [apply fft_new2_ok; lia|]. split; [exact Ew|]. split; [exact Eq|]. split.
    - unfold sv_ok in Wq. rewrite EK' in Wq. refine (F2_join _ _ _ (qlist m n) _ _ _ (F2_filter _ (fun l => m <=? row l 0) _ _ _ _ W) Wq).
      + intros l P Q Hl (I & A0 & A1 & V) (I' & B0 & B1 & V'). specialize (I' ltac:(unfold K; lia)). rewrite EK' in *. pose proof (proj1 (in_qlist m n l ltac:(lia)) Hl) as (PL & _).
        unfold lifted_part. rewrite I. change (io_lambda (mkirr n l)) with l. exists (io_tabs (mkirr n l)), (embl m K l). split; [apply young_tableaux_ok; auto; lia|]. split.
        { rewrite <- EK'. apply embl_columns; [lia|]. rewrite EK'. auto. }
        split; [congruence|]. split; [auto|]. split; [auto|]. split; [auto|]. split; [rewrite B1, <- zlen_embl; reflexivity|]. change (Z.of_nat (length (io_tabs (mkirr n l)))) with (io_d (mkirr n l)). intros i Hi. split.
        * change (Z.of_nat (length (embl m K l))) with (zlen (embl m K l)). rewrite zlen_embl. intros y Hy. change (nth (Z.to_nat y) (embl m K l) 0) with (emb m K l y). assert (0 <= emb m K l y < io_d (mkirr n l)) as Hy' by (rewrite <- EK'; apply emb_range; [lia|rewrite EK'; auto|auto]).
          rewrite V, V' by auto. rewrite (four_full n m (qf_v f)) by (auto; lia). fold K. rewrite full_in by (rewrite ?EK'; auto; lia). rewrite zfact_fact by lia. reflexivity.
        * intros c Hc N. rewrite V by auto. rewrite (four_full n m (qf_v f)) by (auto; lia). fold K. apply full_out; rewrite ?EK'; auto; [lia|]. apply out_cols; auto.
      + intros l P (I & _). rewrite I. reflexivity.
    - intros P HP HR i c Hi Hc. clear Wq Eq. destruct (Forall2_in_r _ _ _ _ W HP) as (l & Hl & (I & A0 & A1 & V)). apply in_parts_n in Hl; auto. rewrite I in HR. change (io_lambda (mkirr n l)) with l in HR. rewrite A0 in Hi. rewrite A1 in Hc.
      rewrite V by auto. rewrite (four_full n m (qf_v f)) by (auto; lia). fold K. apply full_out; rewrite ?EK'; auto; [lia|]. intros FR. destruct (mkirr_ok n l Hl Hn) as (_ & G). pose proof (first_row_len _ _ m (tb_standard n l _ c G Hc) ltac:(lia) FR). lia.
  Qed.

  Lemma sum_cols l (h : Z -> R) : In l (qlist m n) -> (forall c, 0 <= c < io_d (mkirr n l) -> ~ In c (embl m K l) -> h c = 0%R) -> rsum (io_d (mkirr n l)) h = rsum (mlt m K l) (fun y => h (emb m K l y)).
  Proof.
    intros Hl H. assert (In l (qlist m (m + Z.of_nat K))) as Hl' by (rewrite EK'; auto). assert (NoDup (embl m K l)) as ND.
    { apply (NoDup_nth _ 0). intros a b Ha Hb E. destruct (Nat.lt_trichotomy a b) as [C|[C|C]]; auto; exfalso; [pose proof (proj1 (embl_columns m ltac:(lia) K l Hl') a b ltac:(lia))|pose proof (proj1 (embl_columns m ltac:(lia) K l Hl') b a ltac:(lia))]; lia. }
    rewrite rsum_lsum. rewrite (lsum_list_sub Z.eq_dec (embl m K l)).
    - rewrite <- (lsum_nth _ 0). rewrite <- (zlen_embl m K l). unfold rsum, zlen. rewrite Nat2Z.id. unfold lsum, emb, znth. f_equal. apply map_ext. intros k. rewrite Nat2Z.id. reflexivity.
    - exact ND.
    - apply NoDup_zrange.
    - intros c Hc. apply in_zrange. apply (In_nth _ _ 0) in Hc as (k & Hk & <-). pose proof (emb_range m ltac:(lia) K l (Z.of_nat k) Hl') as R. rewrite EK' in R. unfold emb, znth in R. rewrite Nat2Z.id in R. apply R. rewrite <- zlen_embl. unfold zlen. lia.
    - intros c Hc. apply in_zrange in Hc. apply H. auto.
  Qed.

  Lemma plancherel_quotient_sum v v' : snsm_size n m = Ret (zlen v) -> snsm_size n m = Ret (zlen v') ->
    dot v v' = lsum (qlist m n) (fun l => dimR n l * IZR (zfact m) / IZR (zfact n) * rsum (io_d (mkirr n l)) (fun i => rsum (mlt m K l) (fun y =>
      fourV m (fun e => znth v e 0%R) K l i 0 y * fourV m (fun e => znth v' e 0%R) K l i 0 y)))%R.
  Proof.
    intros E E'. pose proof (ncos_size n m ltac:(lia) _ E) as N. pose proof (ncos_size n m ltac:(lia) _ E') as N'. fold K in N, N'. pose proof (ncos_fact m ltac:(lia) K) as NF. rewrite EK' in NF.
    set (F := liftv n m v). set (G := liftv n m v'). pose proof (zfact_pos m) as ZM. pose proof (zfact_pos n) as ZN. assert (IZR (zfact m) <> 0)%R as Nm by (apply not_0_IZR; lia). assert (IZR (zfact n) <> 0)%R as Nn by (apply not_0_IZR; lia).
    apply (Rmult_eq_reg_l (IZR (zfact m))); auto. transitivity (lsum (all_perms n) (fun p => fv F p * fv G p)%R).
    - rewrite (dot_zrange v v' (ncos m K)) by auto. rewrite <- lsum_elements. rewrite <- (rsum_lsum (zfact n)), <- NF. pose proof (ncos_pos m ltac:(lia) K). rewrite rsum_prod by lia. rewrite rsum_lsum, <- lsum_scal. apply lsum_ext. intros c Hc. apply in_zrange in Hc.
      rewrite (rsum_ext _ _ (fun _ => (znth v c 0 * znth v' c 0)%R)).
      + rewrite rsum_lsum, lsum_const. unfold zlen. rewrite zrange_length. replace (Z.of_nat (Z.to_nat (zfact m - 0))) with (zfact m) by lia. reflexivity.
      + intros x Hx. assert (0 <= c * zfact m + x < zfact n) as Hcx by (rewrite <- NF; nia).
        unfold F, G. rewrite !(lifts_fv n m _ _ _ ltac:(lia) (liftv_fun n m _) (liftv_lifts n m _ ltac:(lia))) by (apply is_perm_elt_z; lia). rewrite idn_elt_z by lia.
        replace ((c * zfact m + x) / zfact m) with c; auto. apply (Z.div_unique _ _ _ x); [lia|ring].
    - unfold F, G. rewrite plancherel_fun by lia. unfold qlist. rewrite lsum_filter, <- lsum_scal. apply lsum_ext. intros l Hl. apply in_parts_n in Hl; [|lia]. destruct (Z.leb_spec m (row l 0)) as [R0|R0].
      + assert (In l (qlist m n)) as Hq by (apply in_qlist; auto; lia).
        rewrite (rsum_ext _ _ (fun i => (IZR (zfact m) * IZR (zfact m) * rsum (mlt m K l) (fun y => fourV m (fun e => znth v e 0%R) K l i 0 y * fourV m (fun e => znth v' e 0%R) K l i 0 y))%R)).
        * rewrite rsum_scal. field. auto.
        * intros i Hi. rewrite sum_cols; auto.
          -- rewrite <- rsum_scal. apply rsum_ext. intros y Hy. rewrite (four_full n m v), (four_full n m v') by (auto using liftv_fun, liftv_lifts; try apply liftv_lifts; lia). fold K. rewrite !full_in by (rewrite ?EK'; auto; lia). ring.
          -- intros c Hc Nc. rewrite (four_full n m v) by (auto using liftv_fun; try apply liftv_lifts; lia). fold K. rewrite full_out; rewrite ?EK'; auto; [ring|lia|]. apply out_cols; auto.
      + rewrite Rmult_0_r. rewrite (rsum_ext _ _ (fun _ => 0%R)). { rewrite rsum_lsum, lsum_0 by auto. ring. }
        intros i Hi. rewrite rsum_lsum. apply lsum_0. intros c Hc. apply in_zrange in Hc. rewrite (four_full n m v) by (auto using liftv_fun; try apply liftv_lifts; lia). fold K. rewrite full_out; rewrite ?EK'; auto; [ring|lia|].
        intros FR. destruct (mkirr_ok n l Hl ltac:(lia)) as (_ & Gd). pose proof (first_row_len _ _ m (tb_standard n l _ c Gd Hc) ltac:(lia) FR). lia.
  Qed.

  Lemma plancherel_quotient f g : qf_n f = n -> qf_m f = m -> snsm_size n m = Ret (Z.of_nat (length (qf_v f))) -> qf_n g = n -> qf_m g = m -> snsm_size n m = Ret (Z.of_nat (length (qf_v g))) ->
    exists F wf wg, fft_new2 n m = Ret F /\ fft_forward_q act F f = Ret wf /\ fft_forward_q act F g = Ret wg /\
      dot (qf_v f) (qf_v g) = sum_over (combine wf wg) (fun PQ => IZR (io_d (sp_irr (fst PQ))) * INR (fact (Z.to_nat m)) / INR (fact (Z.to_nat n)) *
        rsum (m_n0 (sp_mat (fst PQ))) (fun i => rsum (m_n1 (sp_mat (fst PQ))) (fun y => m_at (sp_mat (fst PQ)) i y * m_at (sp_mat (snd PQ)) i y)))%R.
  Proof.
    intros _ _ E _ _ E'. destruct (forward_q act n m GA ltac:(lia) (qf_v f) E) as (wf & Ef & Wf). destruct (forward_q act n m GA ltac:(lia) (qf_v g) E') as (wg & Eg & Wg). fold K in Wf, Wg.
    exists (fftq n m), wf, wg. split; [apply fft_new2_ok; lia|]. split; [exact Ef|]. split; [exact Eg|]. rewrite plancherel_quotient_sum by auto. unfold sv_ok in Wf, Wg. rewrite EK' in Wf, Wg.
    change (@sum_over) with (@lsum). clear Ef Eg. revert wg Wg. induction Wf as [|l P ls wf HP W IH]; intros wg V; inversion V as [|? Q ? wg' HQ V']; subst; [reflexivity|].
    cbn [combine]. rewrite !lsum_cons. rewrite <- (IH wg' V'). f_equal. cbn [fst snd]. destruct HP as (A1 & A2 & A3 & A4). destruct HQ as (B1 & B2 & B3 & B4). rewrite EK' in *. rewrite A1, A2, A3 by (unfold K; lia). f_equal.
    - unfold dimR. rewrite !zfact_fact by lia. reflexivity.
    - apply rsum_ext. intros i Hi. apply rsum_ext. intros y Hy. rewrite A4, B4 by auto. reflexivity.
  Qed.
End Code.
