(* SnVec: cat in terms of tableaux, round trips. *)
From Coq Require Import ZArith List Bool Lia Reals Lra Sorting.Sorted Permutation.
From Verif Require Import Model_Base Model_Perm Model_Sn Model_Part Model_Comb Model_Tab Model_Irrep Model_Type Model_FFT Model_Vec.
From Verif Require Import Spec_Perm Spec_Part Spec_Tab Spec_Rep Spec_Four Spec_Type Spec_FFT Spec_Vec.
From Verif Require Import Proof_Base Proof_Perm Proof_Sn Proof_Part Proof_PartProps Proof_Tab Proof_TabProps Proof_Cycles Proof_Cox Proof_Yor Proof_Sum Proof_Irrep Proof_Rep Proof_Mat Proof_IrrepProps Proof_JM Proof_Conn Proof_Schur Proof_Restr Proof_UpDown Proof_Complete Proof_CharBank Proof_Type Proof_FFTlay Proof_FFTlay2 Proof_FFTblk Proof_FFTstep Proof_Vec Proof_Vec2 Proof_Vec3 Proof_Vec4.
Import ListNotations.
Open Scope Z_scope.

Lemma cols_find mu : forall ps c, 0 <= c < columns_of ps mu -> exists a P b j, ps = a ++ P :: b /\ key P = mu /\ c = columns_of a mu + j /\ 0 <= j < m_n1 (sp_mat P).
Proof.
  induction ps as [|P ps IH] using rev_ind; intros c Hc; [change (columns_of [] mu) with 0 in Hc; lia|]. rewrite cols_snoc in Hc.
  destruct (Z_lt_le_dec c (columns_of ps mu)) as [L|L].
  - destruct (IH c ltac:(lia)) as (a & Q & b & j & -> & K & E & Hj). exists a, Q, (b ++ [P]), j. rewrite <- app_assoc. auto.
  - destruct (pdec (key P) mu) as [K|]; [|lia]. exists ps, P, [], (c - columns_of ps mu). split; [auto|]. split; [auto|]. lia.
Qed.

Lemma zp_in n tau Q0 : In Q0 (map (zp n) tau) -> exists l m, In (l, m) tau /\ key Q0 = l /\ sp_irr Q0 = mkirr n l /\ m_n0 (sp_mat Q0) = io_d (mkirr n l) /\ m_n1 (sp_mat Q0) = m.
Proof. intros H. apply in_map_iff in H as ((l, m) & <- & I). exists l, m. auto. Qed.

Theorem cat_vec n vs : 1 <= n -> (forall v P, In v vs -> In P v -> exists l m, is_part n l /\ part_of l m P) ->
  exists tau R, sv_cat vs = Ret R /\ type_of n tau /\ vec_of tau R /\
    (forall l, In l (map fst tau) <-> exists P, In P (concat vs) /\ io_lambda (sp_irr P) = l) /\ (forall l, mult tau l = columns_of (concat vs) l) /\
    forall Q t c x, In Q R -> (at_tableau Q t c x <-> exists a P b j, concat vs = a ++ P :: b /\ io_lambda (sp_irr P) = io_lambda (sp_irr Q) /\ c = columns_of a (io_lambda (sp_irr P)) + j /\ at_tableau P t j x).
Proof.
  intros Hn Hv.
  assert (forall P, In P (concat vs) -> pgood n P) as Hg.
  { intros P HP. apply in_concat in HP as (v & H1 & H2). destruct (Hv v P H1 H2) as (l & m & Hl & K). apply (part_pgood n l m P Hl Hn K). }
  destruct (cat_pure n vs Hn Hg) as (tau & R & E & T & I & A & F). exists tau, R. split; [auto|]. split; [auto|].
  pose proof (type_nodup n tau T) as Nt. pose proof T as (_ & Tp). rewrite Forall_forall in Tp.
  assert (forall l m, In (l, m) tau -> is_part n l /\ m = columns_of (concat vs) l /\ 0 <= m) as Tq.
  { intros l m Hp. split; [apply Tp; apply (in_map fst) in Hp; exact Hp|]. assert (m = columns_of (concat vs) l) as -> by (rewrite <- A; symmetry; apply mult_in; auto). split; [auto|]. apply cols_nonneg. intros P HP. apply Hg; auto. }
  split; [|split; [|split; [auto|]]].
  - unfold vec_of. apply (proj1 (Forall2_map_l _ _ _ _)) in F. eapply Forall2_mono; [|exact F]. intros (l, m) Q Hp (C1 & C2 & C3 & _). destruct (Tq l m Hp) as (T1 & _ & T3). cbn [fst snd]. apply (good_part n); auto.
  - intros l. rewrite I, in_map_iff. split; intros (P & H1 & H2); exists P; auto.
  - intros Q t c x HQ. destruct (Forall2_in_r _ _ _ _ F HQ) as (Q0 & HQ0 & C1 & C2 & C3 & C4 & C5). destruct (zp_in n tau Q0 HQ0) as (l & m & Il & K0 & E0 & N0 & N1).
    destruct (Tq l m Il) as (T1 & T2 & T3). assert (key Q = l) as KQ by (unfold key; rewrite C1; exact K0). fold (key Q). rewrite KQ. rewrite at_iff, C3, N1, C1, E0. split.
    + intros (Hc & i & Hi & Ht & Hx). rewrite T2 in Hc. destruct (cols_find l (concat vs) c Hc) as (a & P & b & j & Es & KP & Ec & Hj). exists a, P, b, j. fold (key P). rewrite KP. split; [auto|]. split; [auto|]. split; [auto|].
      destruct (Hg P) as (G1 & G2 & G3 & G4); [rewrite Es; apply in_app_iff; right; left; auto|]. rewrite KP in *. apply at_iff. split; [auto|]. exists i. rewrite G2. split; [auto|]. split; [auto|].
      rewrite <- Hx, Ec. symmetry. rewrite <- KP. apply (C4 a P b i j Es); [congruence|rewrite G3; auto|auto].
    + intros (a & P & b & j & Es & KP & Ec & HA). fold (key P) in *. apply at_iff in HA as (Hj & i & Hi & Ht & Hx).
      assert (forall X, In X a \/ In X b -> 0 <= m_n1 (sp_mat X)) as Hab by (intros X HX; apply Hg; rewrite Es; apply in_app_iff; destruct HX; [left|right; right]; auto).
      destruct (Hg P) as (G1 & G2 & G3 & G4); [rewrite Es; apply in_app_iff; right; left; auto|]. rewrite KP in *. rewrite G2 in Hi, Ht.
      pose proof (cols_nonneg a l (fun X H => Hab X (or_introl H))). pose proof (cols_nonneg b l (fun X H => Hab X (or_intror H))). split.
      * rewrite T2, Es, cols_app, cols_cons. destruct (pdec (key P) l); [lia|congruence].
      * exists i. split; [auto|]. split; [auto|]. rewrite <- Hx, Ec. rewrite <- KP. apply (C4 a P b i j Es); [congruence|rewrite G3; auto|auto].
Qed.

(* the type that get_type finds *)
Theorem type_vec n tau v : 1 <= n -> type_of n tau -> vec_of tau v -> sv_type v = Ret tau.
Proof.
  intros Hn T V. unfold sv_type.
  assert (forall p, In p tau -> is_part n (fst p)) as Tp by (intros p Hp; destruct T as (_ & F); rewrite Forall_forall in F; apply F, in_map; auto).
  assert (forall t0, type_of n t0 -> exists t', foldM (fun P R => ty_set R (io_lambda (sp_irr P)) (m_n1 (sp_mat P))) v t0 = Ret t' /\ type_of n t' /\
    (forall x, In x (map fst t') <-> In x (map fst tau) \/ In x (map fst t0)) /\ (NoDup (map fst tau) -> forall x, mult t' x = if in_dec pdec x (map fst tau) then mult tau x else mult t0 x)) as K.
  { clear T. induction V as [|p P tau v H V IH]; intros t0 T0.
    - exists t0. cbn. split; [auto|]. split; [auto|]. split; [tauto|auto].
    - cbn [foldM]. destruct (part_pgood n (fst p) (snd p) P) as (_ & K1 & K2); auto; [apply Tp; left; auto|]. fold (key P). rewrite K1, K2.
      destruct (set_ok n t0 (fst p) (snd p) T0) as (t1 & E1 & T1 & I1 & M1); [apply Tp; left; auto|]. rewrite E1. cbn [bind].
      destruct (IH (fun q Hq => Tp q (or_intror Hq)) t1 T1) as (t' & E' & T' & I' & M'). exists t'. split; [auto|]. split; [auto|]. split.
      + intros x. rewrite I', I1. cbn [map In]. intuition congruence.
      + intros N x. cbn [map] in N. inversion N as [|? ? N1 N2]; subst. rewrite (M' N2 x), M1. destruct p as (l, m). cbn [map fst snd] in *.
        cbn [mult]. destruct (list_eq_dec Z.eq_dec l x) as [->|Nx].
        * destruct (in_dec pdec x (x :: map fst tau)) as [|C]; [|destruct C; left; auto]. destruct (in_dec pdec x (map fst tau)); [contradiction|]. destruct (pdec x x); congruence.
        * destruct (in_dec pdec x (map fst tau)), (in_dec pdec x (l :: map fst tau)) as [C|C]; auto; [destruct C; right; auto| |]. { destruct C; congruence. } destruct (pdec l x); congruence. }
  destruct (K [] (type_nil n)) as (t' & E & T' & I' & M'). rewrite E. f_equal. apply (type_determined n); auto.
  - intros l. rewrite I'. cbn. tauto.
  - intros l. rewrite (M' (type_nodup n tau T)). destruct (in_dec pdec l (map fst tau)) as [|C]; [auto|]. rewrite <- (msum_mult tau) by (apply (type_nodup n); auto). rewrite msum_notin by auto. reflexivity.
Qed.

(* ---- round trips ---- *)

Lemma at_part_fun n l m P t j x y : is_part n l -> 1 <= n -> part_of l m P -> at_tableau P t j x -> at_tableau P t j y -> x = y.
Proof.
  intros Hl Hn HP A B. destruct (part_good n l m P Hl Hn HP) as (E & _). apply at_iff in A as (_ & i & Hi & Ti & <-). apply at_iff in B as (_ & i' & Hi' & Ti' & <-).
  rewrite E in *. f_equal. apply (tb_inj n l); auto. congruence.
Qed.

Lemma same_by_entries n l m P Q : is_part n l -> 1 <= n -> part_of l m P -> part_of l m Q -> (forall t j x, at_tableau P t j x -> at_tableau Q t j x) -> same_part Q P.
Proof.
  intros Hl Hn HP HQ H. destruct (part_good n l m P Hl Hn HP) as (E & N0 & N1 & _), (part_good n l m Q Hl Hn HQ) as (E' & N0' & N1' & _).
  split; [congruence|]. split; [congruence|]. split; [congruence|]. intros i j Hi Hj. rewrite N0' in Hi. rewrite N1' in Hj.
  assert (at_tableau P (tb (mkirr n l) i) j (m_at (sp_mat P) i j)) as A. { apply at_iff. rewrite N1. split; [auto|]. exists i. rewrite E. auto. }
  apply H in A. eapply (at_part_fun n l m Q); eauto. apply at_iff. rewrite N1'. split; [auto|]. exists i. rewrite E'. auto.
Qed.

(* all the parts of a vector, restricted *)
Lemma downs_pure n tau w : 2 <= n -> (forall p, In p tau -> is_part n (fst p)) -> vec_of tau w ->
  exists Vs, Forall2 (fun P V => sv_down P = Ret V) w Vs /\ Forall2 (fun pP V => Forall2 (down_part n (fst (fst pP)) (snd (fst pP)) (snd pP)) (corners (fst (fst pP))) V) (combine tau w) Vs.
Proof.
  intros Hn Tp F. induction F as [|p P tau w H F IH]; cbn [combine]; [exists []; split; constructor|].
  destruct IH as (Vs & A & B); [intros; apply Tp; right; auto|]. destruct (down_pure n (fst p) (snd p) P) as (V & E & D); auto; [apply Tp; left; auto|].
  exists (V :: Vs). split; constructor; auto.
Qed.

Lemma down_keys n l m P V : Forall2 (down_part n l m P) (corners l) V -> map (fun Q => (key Q, m_n1 (sp_mat Q))) V = map (fun mu => (mu, m)) (map (prem l) (corners l)).
Proof.
  rewrite map_map. induction 1 as [|r Q cs V (E1 & E2 & E3 & _) F IH]; cbn; [auto|]. rewrite IH, E3. f_equal. f_equal. unfold key. rewrite E1. reflexivity.
Qed.

Lemma down_type_events n tau : (forall p, In p tau -> is_part n (fst p)) -> 1 <= n -> forall s,
  foldM (fun (p : list Z * Z) R => ms <- ip_foreach_sub (fst p) ;; foldM (fun mu R => ty_add R mu (snd p)) ms R) tau s =
  foldM (fun p t => ty_add t (fst p) (snd p)) (flat_map (fun p => map (fun mu => (mu, snd p)) (map (prem (fst p)) (corners (fst p)))) tau) s.
Proof.
  intros HP Hn. induction tau as [|p t IH]; intros s; [reflexivity|]. cbn [foldM flat_map]. rewrite (ip_foreach_sub_ok n) by (auto; apply HP; cbn; auto). cbn [bind]. rewrite foldM_app, (foldM_mapp (fun mu => (mu, snd p))). cbn [fst snd].
  destruct (foldM (fun mu R => ty_add R mu (snd p)) (map (prem (fst p)) (corners (fst p))) s); cbn; auto. apply IH. intros; apply HP; cbn; auto.
Qed.

Lemma downs_events n tau w Vs : length tau = length w -> Forall2 (fun pP V => Forall2 (down_part n (fst (fst pP)) (snd (fst pP)) (snd pP)) (corners (fst (fst pP))) V) (combine tau w) Vs ->
  map (fun Q => (key Q, m_n1 (sp_mat Q))) (concat Vs) = flat_map (fun p => map (fun mu => (mu, snd p)) (map (prem (fst p)) (corners (fst p)))) tau.
Proof.
  revert w Vs. induction tau as [|p tau IH]; intros [|P w] Vs L F; cbn [combine] in F; try discriminate; inversion F; subst; [reflexivity|].
  cbn [concat flat_map]. rewrite map_app. f_equal; [eapply down_keys; eauto|]. eapply IH; eauto.
Qed.

Lemma events_cols n tau mu : (forall p, In p tau -> is_part n (fst p)) -> 1 <= n -> is_part (n - 1) mu ->
  msum (flat_map (fun p => map (fun mu => (mu, snd p)) (map (prem (fst p)) (corners (fst p)))) tau) mu = columns_used tau mu.
Proof.
  intros Hp Hn Hm. unfold msum. rewrite zsum_over_flat. unfold columns_used. change (fold_right Z.add 0) with zsum.
  induction tau as [|p tau IH]; [reflexivity|]. rewrite zsum_over_cons, IH by (intros; apply Hp; right; auto). cbn [filter].
  assert (zsum_over (map (fun mu0 : list Z => (mu0, snd p)) (map (prem (fst p)) (corners (fst p)))) (fun p0 => if pdec (fst p0) mu then snd p0 else 0) = if fits mu (fst p) then snd p else 0) as ->.
  2:{ destruct (fits mu (fst p)); [reflexivity|lia]. }
  rewrite (fits_inb n) by (auto; apply Hp; left; auto).
  assert (NoDup (map (prem (fst p)) (corners (fst p)))) as N.
  { destruct (parents_exact n (fst p)) as (ps & E & _ & N & _); auto; [apply Hp; left; auto|]. unfold ip_parents in E. rewrite (ip_foreach_sub_ok n) in E by (auto; apply Hp; left; auto). apply Ret_inj in E. rewrite E. auto. }
  revert N. generalize (map (prem (fst p)) (corners (fst p))) as ms. intros ms N. induction ms as [|x ms IHm]; [reflexivity|]. inversion N as [|? ? N1 N2]; subst. cbn [map]. rewrite zsum_over_cons, IHm by auto. cbn [fst snd].
  destruct (pdec x mu) as [->|Nx].
  - assert (inb mu ms = false) as -> by (apply not_true_iff_false; rewrite inb_iff; auto). rewrite (proj2 (inb_iff mu (mu :: ms)) (or_introl eq_refl)). lia.
  - replace (inb mu (x :: ms)) with (inb mu ms); [reflexivity|]. apply eq_true_iff_eq. rewrite !inb_iff. cbn [In]. intuition congruence.
Qed.

Lemma downs_cols n tau w Vs mu : (forall p, In p tau -> is_part n (fst p)) -> 1 <= n -> is_part (n - 1) mu -> length tau = length w ->
  Forall2 (fun pP V => Forall2 (down_part n (fst (fst pP)) (snd (fst pP)) (snd pP)) (corners (fst (fst pP))) V) (combine tau w) Vs -> columns_of (concat Vs) mu = columns_used tau mu.
Proof. intros Hp Hn Hm L F. rewrite cols_msum, (downs_events n tau w Vs L F). apply (events_cols n); auto. Qed.

Lemma Forall2_by_nth {A B} (rel : A -> B -> Prop) : forall (w : list B) (R : list A), length R = length w ->
  (forall pre P post, w = pre ++ P :: post -> exists Q, nth_error R (length pre) = Some Q /\ rel Q P) -> Forall2 rel R w.
Proof.
  induction w as [|P w IH]; intros [|Q R] L H; try discriminate; [constructor|]. constructor.
  - destruct (H [] P w eq_refl) as (Q' & E & K). cbn in E. injection E as ->. auto.
  - apply IH; [cbn in L; lia|]. intros pre P' post E. destruct (H (P :: pre) P' post) as (Q' & E' & K); [rewrite E; reflexivity|]. cbn in E'. eauto.
Qed.

Lemma vec_parts n tau w : 1 <= n -> (forall p, In p tau -> is_part n (fst p)) -> vec_of tau w -> forall P, In P w -> exists l m, In (l, m) tau /\ is_part n l /\ part_of l m P.
Proof. intros Hn Tp V P HP. destruct (Forall2_in_r _ _ _ _ V HP) as ((l, m) & I & K). exists l, m. split; [auto|]. split; [apply (Tp _ I)|exact K]. Qed.

Lemma down_part_of n l m P r Q : is_part n l -> 2 <= n -> 0 <= m -> In r (corners l) -> down_part n l m P r Q -> part_of (prem l r) m Q.
Proof. intros Hl Hn Hm Hr (E1 & E2 & E3 & _). apply (good_part (n - 1)); auto; [eapply corner_part; eauto|lia]. Qed.

Lemma combine_app_split {A B} (tau : list A) (w : list B) wa P wb : length tau = length w -> w = wa ++ P :: wb -> exists pre p post, tau = pre ++ p :: post /\ length pre = length wa /\ combine tau w = combine pre wa ++ (p, P) :: combine post wb.
Proof.
  revert tau w. induction wa as [|x wa IH]; intros [|p tau] w L E; subst w; cbn in L; try discriminate.
  - exists [], p, tau. auto.
  - destruct (IH tau (wa ++ P :: wb)) as (pre & q & post & -> & L' & E'); [lia|auto|]. exists (p :: pre), q, post. cbn. rewrite L', E'. auto.
Qed.

(* the pieces: restrict every part, put the pieces together; the result and where everything is *)
Lemma down_cat n tau w : 2 <= n -> type_of n tau -> vec_of tau w ->
  exists Vs V sg, Forall2 (fun P V => sv_down P = Ret V) w Vs /\ sv_cat Vs = Ret V /\ ty_down tau = Ret sg /\ type_of (n - 1) sg /\ vec_of sg V /\
    (forall mu, is_part (n - 1) mu -> mult sg mu = columns_used tau mu) /\
    (forall mu, In mu (map fst sg) <-> exists l m, In (l, m) tau /\ is_part (n - 1) mu /\ contained mu l) /\
    forall pre l m post P wa wb t j x, tau = pre ++ (l, m) :: post -> w = wa ++ P :: wb -> length pre = length wa -> at_tableau P t j x ->
      exists Q, In Q V /\ contained (io_lambda (sp_irr Q)) l /\ at_tableau Q (erase n t) (columns_used pre (io_lambda (sp_irr Q)) + j) x.
Proof.
  intros Hn T W.
  assert (forall p, In p tau -> is_part n (fst p)) as Tp by (intros p Hp; destruct T as (_ & F); rewrite Forall_forall in F; apply F, in_map; auto).
  destruct (downs_pure n tau w Hn Tp W) as (Vs & D & F). assert (length tau = length w) as L by (eapply Forall2_len; eauto).
  destruct (cat_vec (n - 1) Vs) as (sg & V & EV & Ts & VV & Ik & Mk & Ent); [lia| |].
  { intros v Q Hv HQ. destruct (Forall2_in_r _ _ _ _ F Hv) as ((p, P) & Hp & FD). cbn [fst snd] in FD. destruct (Forall2_in_r _ _ _ _ FD HQ) as (r & Hr & K).
    assert (In p tau) as I by (apply in_combine_l in Hp; auto). assert (In P w) as IP by (apply in_combine_r in Hp; auto).
    exists (prem (fst p) r), (snd p). pose proof (Tp p I) as Hl. split; [eapply corner_part; eauto|]. eapply down_part_of; eauto.
    assert (forall (a : list Z * Z) b, In (a, b) (combine tau w) -> part_of (fst a) (snd a) b) as C. { clear - W. induction W; cbn; [tauto|]. intros a b [E|E]; [injection E as <- <-; auto|auto]. }
    apply C in Hp. apply Hp. }
  exists Vs, V, sg. split; [auto|]. split; [auto|].
  assert (forall mu, mult sg mu = msum (flat_map (fun p => map (fun mu => (mu, snd p)) (map (prem (fst p)) (corners (fst p)))) tau) mu) as Ms.
  { intros mu. rewrite Mk, cols_msum, (downs_events n tau w Vs L F). reflexivity. }
  assert (forall mu, In mu (map fst sg) <-> In mu (map fst (flat_map (fun p => map (fun mu => (mu, snd p)) (map (prem (fst p)) (corners (fst p)))) tau))) as Is.
  { intros mu. rewrite Ik, <- (downs_events n tau w Vs L F), map_map. cbn [fst]. rewrite in_map_iff. split; intros (Q & A & B); exists Q; auto. }
  assert (ty_down tau = Ret sg) as Ed.
  { unfold ty_down. rewrite (down_type_events n) by (auto; lia).
    destruct (adds_ok (n - 1) (flat_map (fun p => map (fun mu => (mu, snd p)) (map (prem (fst p)) (corners (fst p)))) tau) [] (type_nil _)) as (sg' & E & T' & I' & A').
    { apply Forall_forall. intros mu Hmu. apply Is in Hmu. destruct Ts as (_ & Ts). rewrite Forall_forall in Ts. auto. }
    rewrite E. f_equal. apply (type_determined (n - 1)); auto.
    - intros mu. rewrite I', Is. cbn. tauto.
    - intros mu. rewrite A', Ms. cbn. lia. }
  split; [auto|]. split; [auto|]. split; [auto|]. split; [|split].
  - intros mu Hmu. rewrite Ms. apply (events_cols n); auto. lia.
  - intros mu. rewrite Is, in_map_iff. split.
    + intros ((mu', m) & <- & H). apply in_flat_map in H as (p & Hp & H). apply in_map_iff in H as (mu'' & E & H). injection E as <- <-. apply (subs_in n) in H as (H1 & H2); [|auto|lia]. exists (fst p), (snd p). split; [destruct p; auto|auto].
    + intros (l & m & I & H1 & H2). exists (mu, m). split; [auto|]. apply in_flat_map. exists (l, m). split; [auto|]. cbn [fst snd]. apply in_map_iff. exists mu. split; [auto|]. apply (subs_in n); [apply (Tp _ I)|lia|auto].
  - intros pre l m post P wa wb t j x Et Ew Lp HA.
    destruct (combine_app_split tau w wa P wb L Ew) as (pre' & p' & post' & Et' & Lp' & Ec).
    assert (pre' = pre /\ p' = (l, m)) as (-> & ->). { rewrite Et in Et'. clear - Et' Lp Lp'. assert (length pre = length pre') as LL by lia. clear Lp Lp'. revert pre' LL Et'. induction pre as [|y pre IH]; intros [|z pre'] LL E; try discriminate; cbn in E; injection E as E1 E2; [subst; auto|]. destruct (IH pre') as (-> & ->); auto. subst; auto. }
    rewrite Ec in F. destruct (Forall2_split_l _ _ _ _ _ F) as (Va & Vp & Vb & EVs & Fa & Fp & Fb). cbn [fst snd] in Fp.
    assert (is_part n l) as Hl by (apply (Tp (l, m)); rewrite Et; apply in_app_iff; right; left; auto).
    assert (part_of l m P) as HP. { clear - W Et Ew Lp. revert pre Et Lp. revert W. rewrite Ew. clear Ew. intros W pre Et Lp. rewrite Et in W. apply Forall2_app_inv_l in W as (x1 & x2 & A & B & C). assert (length x1 = length wa) as LL by (apply Forall2_len in A; lia).
      assert (x1 = wa /\ x2 = P :: wb) as (-> & ->). { clear - LL C. revert x1 LL C. induction wa as [|y wa IH]; intros [|z x1] LL E; try discriminate; cbn in E; [auto|]. injection E as E1 E2. destruct (IH x1) as (-> & ->); auto. subst; auto. } inversion B; subst; auto. }
    destruct (part_good n l m P Hl ltac:(lia) HP) as (EI & D0 & D1 & Hm).
    apply at_iff in HA as (Hj & i & Hi & Ht & Hx). rewrite EI in *. destruct (boff_find n l i Hl Hn Hi) as (r & a & Hr & Ha & ->).
    apply in_split in Hr as Hrs. destruct Hrs as (ca & cb & Ecs). rewrite Ecs in Fp. destruct (Forall2_split_l _ _ _ _ _ Fp) as (qa & Q1 & qb & EVp & Fqa & FQ & Fqb).
    pose proof FQ as (Q11 & Q12 & Q13 & Q14).
    assert (is_part (n - 1) (prem l r)) as Pr by (eapply corner_part; eauto).
    assert (at_tableau Q1 (erase n t) j x) as A1.
    { apply at_iff. rewrite Q13. split; [lia|]. exists a. rewrite Q11. split; [auto|]. split; [rewrite <- Ht; symmetry; apply erase_block; auto|]. rewrite Q14 by (auto; lia). auto. }
    assert (key Q1 = prem l r) as K1 by (unfold key; rewrite Q11; reflexivity).
    assert (In (prem l r) (map fst sg)) as Ir. { apply Ik. exists Q1. split; [|exact K1]. rewrite EVs, EVp. rewrite concat_app. cbn [concat]. apply in_app_iff. right. apply in_app_iff. left. apply in_app_iff. right. left. auto. }
    apply in_map_iff in Ir as ((mu, k) & E2 & Imk). cbn in E2. subst mu.
    destruct (Forall2_in_l _ _ _ _ VV Imk) as (Q & HQ & KQ). cbn [fst snd] in KQ. destruct (part_pgood (n - 1) _ _ Q Pr ltac:(lia) KQ) as (_ & K2 & _).
    exists Q. split; [auto|]. fold (key Q). rewrite K2. split; [apply (subs_in n l); auto; [lia|apply in_map; auto]|].
    apply (Ent Q (erase n t) (columns_used pre (prem l r) + j) x HQ). exists (concat Va ++ qa), Q1, (qb ++ concat Vb), j. split; [rewrite EVs, EVp, concat_app; cbn [concat]; rewrite <- !app_assoc; reflexivity|].
    fold (key Q1). fold (key Q). rewrite K1, K2. split; [auto|]. split; [|auto].
    rewrite cols_app. rewrite (downs_cols n pre wa Va) by (auto; try lia; intros q Hq; apply Tp; rewrite Et; apply in_app_iff; auto).
    assert (columns_of qa (prem l r) = 0) as ->; [|lia].
    rewrite cols_msum. apply msum_notin. rewrite map_map. cbn [fst]. intros H. apply in_map_iff in H as (Q' & E' & H').
    destruct (Forall2_in_r _ _ _ _ Fqa H') as (r' & Hr' & (Z1 & _)). unfold key in E'. rewrite Z1 in E'. cbn [mkirr io_lambda] in E'.
    assert (In r' (corners l)) as Hr2 by (rewrite Ecs; apply in_app_iff; auto).
    apply prem_inj in E'; [|eapply is_part_ppos; eauto|apply in_corners in Hr2; lia|apply in_corners in Hr; lia]. subst r'.
    destruct (nodup_split _ _ _ _ (NoDup_corners l) Ecs). contradiction.
Qed.

Theorem there_and_back n tau w : 2 <= n -> type_of n tau -> vec_of tau w ->
  exists Vs V sg R, Forall2 (fun P V => sv_down P = Ret V) w Vs /\ sv_cat Vs = Ret V /\ ty_down tau = Ret sg /\ vec_of sg V /\
    sv_up tau V = Ret R /\ Forall2 same_part R w.
Proof.
  intros Hn T W. destruct (down_cat n tau w Hn T W) as (Vs & V & sg & D & EV & Ed & Ts & VV & Ms & Is & Ent).
  assert (forall p, In p tau -> is_part n (fst p)) as Tp by (intros p Hp; destruct T as (_ & F); rewrite Forall_forall in F; apply F, in_map; auto).
  destruct (up_vec n tau sg V Hn T) as (R & ER & VR & Up); auto.
  - intros p Hp. destruct (Forall2_in_l _ _ _ _ W Hp) as (P & _ & K). apply K.
  - apply Ts.
  - apply (type_nodup (n - 1)); auto.
  - intros l m mu I H1 H2. assert (In mu (map fst sg)) as J by (apply Is; eauto). apply in_map_iff in J as ((mu', k) & E & J). cbn in E. subst mu'. exists k. split; [auto|].
    rewrite <- Ms by auto. rewrite (mult_in sg mu k); auto; [lia|apply (type_nodup (n - 1)); auto].
  - exists Vs, V, sg, R. do 5 (split; [auto|]). assert (length tau = length w) as L by (eapply Forall2_len; eauto). assert (length tau = length R) as L' by (eapply Forall2_len; eauto).
    apply Forall2_by_nth; [lia|]. intros wa P wb Ew.
    destruct (combine_app_split tau w wa P wb L Ew) as (pre & (l, m) & post & Et & Lp & Ec). destruct (Up pre l m post Et) as (P' & E' & At). rewrite Lp in E'. exists P'. split; [auto|].
    assert (is_part n l) as Hl by (apply (Tp (l, m)); rewrite Et; apply in_app_iff; right; left; auto).
    assert (nth_error tau (length wa) = Some (l, m)) as Nt by (rewrite Et, <- Lp, nth_error_app2, Nat.sub_diag by lia; reflexivity).
    assert (part_of l m P') as HP'. { destruct (Forall2_nth_l _ _ _ _ _ VR Nt) as (P2 & E2 & K). rewrite E' in E2. injection E2 as ->. exact K. }
    assert (part_of l m P) as HP. { destruct (Forall2_nth_l _ _ _ _ _ W Nt) as (P2 & E2 & K). rewrite Ew, nth_error_app2, Nat.sub_diag in E2 by lia. injection E2 as ->. exact K. }
    apply (same_by_entries n l m P P'); auto; [lia|]. intros t j x HA. destruct (Ent pre l m post P wa wb t j x Et Ew Lp HA) as (Q & HQ & _ & AQ).
    apply At. destruct (part_good n l m P Hl ltac:(lia) HP) as (EI & D0 & D1 & Hm). pose proof HA as HA'. apply at_iff in HA' as (Hj & i & Hi & Ht & Hx). rewrite D1 in Hj. rewrite EI in *.
    split; [auto|]. split; [|eauto]. rewrite <- Ht. destruct (mkirr_ok n l Hl ltac:(lia)) as (_ & G). apply (tb_standard n l); auto.
Qed.

Lemma used_find mu : forall tau c, 0 <= c < columns_used tau mu -> exists pre l m post j, tau = pre ++ (l, m) :: post /\ fits mu l = true /\ c = columns_used pre mu + j /\ 0 <= j < m.
Proof.
  induction tau as [|(l, m) tau IH] using rev_ind; intros c Hc; [change (columns_used [] mu) with 0 in Hc; lia|]. rewrite used_snoc in Hc. cbn [fst snd] in Hc.
  destruct (Z_lt_le_dec c (columns_used tau mu)) as [L|L].
  - destruct (IH c ltac:(lia)) as (pre & l' & m' & post & j & -> & K & E & Hj). exists pre, l', m', (post ++ [(l, m)]), j. rewrite <- app_assoc. auto.
  - destruct (fits mu l) eqn:K; [|lia]. exists tau, l, m, [], (c - columns_used tau mu). split; [auto|]. split; [auto|]. lia.
Qed.

Lemma zero_vec n tau : 1 <= n -> (forall p, In p tau -> is_part n (fst p) /\ 0 <= snd p) -> vec_of tau (map (zp n) tau).
Proof.
  intros Hn H. induction tau as [|p tau IH]; cbn [map]; constructor; [|apply IH; intros; apply H; right; auto].
  destruct (H p (or_introl eq_refl)). apply (good_part n); auto.
Qed.

Theorem back_and_there n tau sg V : 2 <= n -> type_of n tau -> (forall p, In p tau -> 0 <= snd p) -> ty_down tau = Ret sg -> vec_of sg V ->
  exists R Vs V', sv_up tau V = Ret R /\ vec_of tau R /\ Forall2 (fun P W => sv_down P = Ret W) R Vs /\ sv_cat Vs = Ret V' /\ Forall2 same_part V' V.
Proof.
  intros Hn T Hm Ed VV.
  assert (forall p, In p tau -> is_part n (fst p)) as Tp by (intros p Hp; destruct T as (_ & F); rewrite Forall_forall in F; apply F, in_map; auto).
  destruct (down_cat n tau (map (zp n) tau) Hn T (zero_vec n tau ltac:(lia) (fun p H => conj (Tp p H) (Hm p H)))) as (_ & _ & sg0 & _ & _ & Ed0 & Ts & _ & Ms & Is & _).
  rewrite Ed in Ed0. apply Ret_inj in Ed0. subst sg0. assert (NoDup (map fst sg)) as Ns by (apply (type_nodup (n - 1)); auto).
  destruct (up_vec n tau sg V Hn T Hm VV) as (R & ER & VR & Up); auto.
  { apply Ts. }
  { intros l m mu I H1 H2. assert (In mu (map fst sg)) as J by (apply Is; eauto). apply in_map_iff in J as ((mu', k) & E & J). cbn in E. subst mu'. exists k. split; [auto|].
    rewrite <- Ms by auto. rewrite (mult_in sg mu k); auto. lia. }
  destruct (down_cat n tau R Hn T VR) as (Vs & V' & sg0 & D & EV & Ed0 & _ & VV' & _ & _ & Ent).
  rewrite Ed in Ed0. apply Ret_inj in Ed0. subst sg0. exists R, Vs, V'. do 4 (split; [auto|]).
  assert (length sg = length V) as L by (eapply Forall2_len; eauto). assert (length sg = length V') as L' by (eapply Forall2_len; eauto).
  apply Forall2_by_nth; [lia|]. intros wa Q wb Ew.
  destruct (combine_app_split sg V wa Q wb L Ew) as (pre & (mu, k) & post & Et & Lp & _).
  assert (nth_error sg (length wa) = Some (mu, k)) as Nt by (rewrite Et, <- Lp, nth_error_app2, Nat.sub_diag by lia; reflexivity).
  assert (In (mu, k) sg) as Imk by (eapply nth_error_In; eauto).
  assert (is_part (n - 1) mu) as Pmu. { destruct Ts as (_ & Ts). rewrite Forall_forall in Ts. apply Ts. apply (in_map fst) in Imk. exact Imk. }
  destruct (Forall2_nth_l _ _ _ _ _ VV' Nt) as (Q' & EQ' & HQ'). cbn [fst snd] in HQ'. exists Q'. split; [auto|].
  assert (part_of mu k Q) as HQ. { destruct (Forall2_nth_l _ _ _ _ _ VV Nt) as (P2 & E2 & K). rewrite Ew, nth_error_app2, Nat.sub_diag in E2 by lia. injection E2 as ->. exact K. }
  apply (same_by_entries (n - 1) mu k Q Q'); auto; [lia|]. intros u c x HA.
  destruct (part_good (n - 1) mu k Q Pmu ltac:(lia) HQ) as (EI & D0 & D1 & Hk). pose proof HA as HA'. apply at_iff in HA as (Hc & a & Ha & Hu & Hx). rewrite D1 in Hc. rewrite EI in Ha, Hu.
  assert (k = columns_used tau mu) as Ek by (rewrite <- Ms by auto; symmetry; apply mult_in; auto). rewrite Ek in Hc.
  destruct (used_find mu tau c Hc) as (tp & l & m & tq & j & Etau & Fit & Ec & Hj).
  assert (is_part n l) as Hl by (apply (Tp (l, m)); rewrite Etau; apply in_app_iff; right; left; auto).
  rewrite (fits_inb n) in Fit by (auto; lia). apply inb_iff in Fit. apply in_map_iff in Fit as (r & Er & Hr). subst mu.
  pose proof (erase_block n l r a Hl Hn Hr Ha) as EB. set (t := tb (mkirr n l) (boff n l r + a)) in *. rewrite Hu in EB.
  assert (standard l t) as St. { destruct (mkirr_ok n l Hl ltac:(lia)) as (_ & G). apply (tb_standard n l); auto. apply boff_bound; auto. }
  destruct (Up tp l m tq Etau) as (P & EP & At).
  assert (In Q V) as IQ by (rewrite Ew; apply in_app_iff; right; left; auto).
  assert (key Q = prem l r) as KQ by (unfold key; rewrite EI; reflexivity).
  assert (at_tableau P t j x) as AP. { apply At. split; [auto|]. split; [auto|]. exists Q. split; [auto|]. fold (key Q). rewrite KQ, EB, <- Ec. exact HA'. }
  apply nth_error_split in EP as (ra & rb & ERs & Lra).
  destruct (Ent tp l m tq P ra rb t j x Etau ERs ltac:(lia) AP) as (Q2 & IQ2 & _ & A2). rewrite EB in A2.
  destruct (vec_good (n - 1) sg V') as (Vg & Vk & _); auto; [lia|apply Ts|]. destruct Vg as (Vg & Nk). destruct (Vg Q2 IQ2) as (X1 & X2 & X3 & X4).
  assert (key Q2 = prem l r) as K2.
  { pose proof A2 as A2'. apply at_iff in A2' as (_ & a2 & Ha2 & Hu2 & _). rewrite X2 in Ha2, Hu2. eapply (shape_det (n - 1)); eauto; [lia|congruence]. }
  assert (key Q' = prem l r) as K3 by (destruct (part_pgood (n - 1) (prem l r) k Q' Pmu ltac:(lia) HQ') as (_ & K3 & _); auto).
  assert (Q2 = Q') as ->. { rewrite <- (vfind_in V' Q2), <- (vfind_in V' Q'); auto; [congruence|]. eapply nth_error_In; eauto. }
  fold (key Q') in A2. rewrite K3, <- Ec in A2. exact A2.
Qed.
