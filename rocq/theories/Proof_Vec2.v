(* SnVec: up. *)
From Coq Require Import ZArith List Bool Lia Reals Lra Sorting.Sorted Permutation.
From Verif Require Import Model_Base Model_Perm Model_Sn Model_Part Model_Comb Model_Tab Model_Irrep Model_Type Model_FFT Model_Vec.
From Verif Require Import Spec_Perm Spec_Part Spec_Tab Spec_Rep Spec_Four Spec_Type Spec_FFT Spec_Vec.
From Verif Require Import Proof_Base Proof_Perm Proof_Sn Proof_Part Proof_PartProps Proof_Tab Proof_TabProps Proof_Cycles Proof_Cox Proof_Yor Proof_Sum Proof_Irrep Proof_Rep Proof_Mat Proof_IrrepProps Proof_JM Proof_Conn Proof_Schur Proof_Restr Proof_UpDown Proof_Complete Proof_CharBank Proof_Type Proof_FFTlay Proof_FFTblk Proof_FFTstep Proof_Vec.
Import ListNotations.
Open Scope Z_scope.

(* ---- finding parts ---- *)

Definition key (P : spart) : list Z := io_lambda (sp_irr P).

Definition vgood (n : Z) (v : list spart) : Prop :=
  (forall Q, In Q v -> is_part n (key Q) /\ sp_irr Q = mkirr n (key Q) /\ m_n0 (sp_mat Q) = io_d (mkirr n (key Q)) /\ 0 <= m_n1 (sp_mat Q)) /\ NoDup (map key v).

Lemma index_from n mu v : is_part n mu -> (forall Q, In Q v -> is_part n (key Q)) -> forall i,
  (~ In mu (map key v) -> sv_index_from v mu i = -1) /\
  (forall a Q b, v = a ++ Q :: b -> key Q = mu -> ~ In mu (map key a) -> sv_index_from v mu i = i + zlen a).
Proof.
  intros Hm. induction v as [|P v IH]; intros Hv i; cbn [sv_index_from].
  - split; auto. intros a Q b E. destruct a; discriminate.
  - destruct (IH (fun Q H => Hv Q (or_intror H)) (i + 1)) as (I1 & I2). fold (key P). split.
    + intros N. cbn [map In] in N. destruct (ip_eq (key P) mu) eqn:E; [|apply I1; tauto]. apply (ip_eq_part n) in E; auto; [tauto|apply Hv; left; auto].
    + intros a Q b E K N. destruct a as [|A a]; cbn [app] in E; injection E as <- ->.
      * rewrite K, (proj2 (ip_eq_part n mu mu Hm Hm) eq_refl). change (zlen (@nil spart)) with 0. lia.
      * cbn [map In] in N. destruct (ip_eq (key P) mu) eqn:E; [apply (ip_eq_part n) in E; auto; [tauto|apply Hv; left; auto]|].
        rewrite (I2 a Q b) by (auto; tauto). rewrite zlen_cons. lia.
Qed.

Lemma index_split n v a Q b : v = a ++ Q :: b -> (forall Q, In Q v -> is_part n (key Q)) -> ~ In (key Q) (map key a) -> sv_index v (key Q) = zlen a.
Proof.
  intros E Hv N. destruct (index_from n (key Q) v) with (i := 0) as (_ & H); auto.
  { apply Hv. rewrite E. apply in_app_iff. right. left. auto. }
  unfold sv_index. rewrite (H a Q b); auto.
Qed.

Lemma index_missing n v mu : is_part n mu -> (forall Q, In Q v -> is_part n (key Q)) -> ~ In mu (map key v) -> sv_index v mu = -1.
Proof. intros. unfold sv_index. apply (proj1 (index_from n mu v ltac:(auto) ltac:(auto) 0)). auto. Qed.

Lemma nodup_split {A} (l a b : list A) x : NoDup l -> l = a ++ x :: b -> ~ In x a /\ ~ In x b.
Proof. intros N ->. apply NoDup_remove_2 in N. rewrite in_app_iff in N. tauto. Qed.

Lemma key_split v a Q b : NoDup (map key v) -> v = a ++ Q :: b -> ~ In (key Q) (map key a) /\ ~ In (key Q) (map key b).
Proof. intros N ->. rewrite map_app in N. cbn [map] in N. apply (nodup_split _ _ _ _ N eq_refl). Qed.

Definition spart0 : spart := mkSpart (mkirr 1 []) (mkMat 0 0 (fun _ _ => 0%R)).
Definition vfind (v : list spart) (mu : list Z) : spart :=
  match find (fun Q => if pdec (key Q) mu then true else false) v with Some Q => Q | None => spart0 end.

Lemma vfind_in v Q : NoDup (map key v) -> In Q v -> vfind v (key Q) = Q.
Proof.
  unfold vfind. induction v as [|P v IH]; intros N H; [destruct H|]. cbn [map] in N. inversion N as [|? ? N1 N2]; subst. cbn [find].
  destruct H as [->|H]; [destruct (pdec (key Q) (key Q)); congruence|].
  destruct (pdec (key P) (key Q)) as [E|]; [|auto]. destruct N1. rewrite E. apply in_map. auto.
Qed.

Lemma vfind_key v mu : In mu (map key v) -> In (vfind v mu) v /\ key (vfind v mu) = mu.
Proof.
  unfold vfind. induction v as [|P v IH]; intros H; [destruct H|]. cbn [find]. destruct (pdec (key P) mu) as [E|E]; [split; [left; auto|auto]|].
  destruct H as [H|H]; [contradiction|]. destruct (IH H) as (A & B). split; [right; auto|auto].
Qed.

(* ---- offsets stored beside the parts ---- *)

Lemma rd_at {A} (a : list A) x b : rd (a ++ x :: b) (zlen a) = Ret x.
Proof.
  rewrite (rd_ok _ _ x); [|rewrite zlen_app, zlen_cons; pose proof (zlen_nonneg a); pose proof (zlen_nonneg b); lia].
  rewrite znth_app by apply zlen_nonneg. rewrite Z.ltb_irrefl, Z.sub_diag. reflexivity.
Qed.

Lemma zupd_at {A} (a : list A) x b y : zupd (a ++ x :: b) (zlen a) y = a ++ y :: b.
Proof.
  unfold zupd. unfold zlen. rewrite Nat2Z.id. rewrite firstn_app, firstn_all, Nat.sub_diag. cbn [firstn]. rewrite app_nil_r.
  rewrite skipn_app, skipn_all2 by lia. replace (S (length a) - length a)%nat with 1%nat by lia. reflexivity.
Qed.

Lemma wr_at {A} (a : list A) x b y : wr (a ++ x :: b) (zlen a) y = Ret (a ++ y :: b).
Proof.
  rewrite wr_ok by (rewrite zlen_app, zlen_cons; pose proof (zlen_nonneg a); pose proof (zlen_nonneg b); lia). rewrite zupd_at. reflexivity.
Qed.

Lemma map_upd (u u' : list Z -> Z) v a Q b x : NoDup (map key v) -> v = a ++ Q :: b -> u' (key Q) = x -> (forall mu, mu <> key Q -> u' mu = u mu) ->
  map (fun Q => u (key Q)) a ++ x :: map (fun Q => u (key Q)) b = map (fun Q => u' (key Q)) v.
Proof.
  intros N E X H. destruct (key_split v a Q b N E) as (Na & Nb). subst v. rewrite map_app. cbn [map]. rewrite X. f_equal; [|f_equal].
  - apply map_ext_in. intros P HP. symmetry. apply H. intros K. apply Na. rewrite <- K. apply in_map. auto.
  - apply map_ext_in. intros P HP. symmetry. apply H. intros K. apply Nb. rewrite <- K. apply in_map. auto.
Qed.

(* ---- one partition of up ---- *)

Definition inb (mu : list Z) (l : list (list Z)) : bool := if in_dec pdec mu l then true else false.

Lemma inb_iff mu l : inb mu l = true <-> In mu l.
Proof. unfold inb. destruct (in_dec pdec mu l); split; auto; discriminate. Qed.

Lemma up_inner n l m v u D0 : is_part n l -> 2 <= n -> 0 <= m -> vgood (n - 1) v -> m_n0 D0 = io_d (mkirr n l) -> m_n1 D0 = m ->
  (forall r, In r (corners l) -> In (prem l r) (map key v) /\ 0 <= u (prem l r) /\ u (prem l r) + m <= m_n1 (sp_mat (vfind v (prem l r)))) ->
  exists D o, foldM (fun mu st =>
      let '(D, voffs, offs) := st in
      let ix := sv_index v mu in
      _ <- assert_ (0 <=? ix) ;;
      src <- rd v ix ;;
      jo <- rd offs ix ;;
      D <- sp_add_to_block_block D voffs 0 (sp_mat src) 0 jo (m_n0 (sp_mat src)) m ;;
      offs <- wr offs ix (jo + m) ;;
      Ret (D, voffs + m_n0 (sp_mat src), offs)) (map (prem l) (corners l)) (D0, 0, map (fun Q => u (key Q)) v) =
    Ret (D, o, map (fun Q => u (key Q) + if inb (key Q) (map (prem l) (corners l)) then m else 0) v) /\
  stack (hrow n l) (fun r a b => m_at (sp_mat (vfind v (prem l r))) a (u (prem l r) + b)) 0 m (corners l) D0 D.
Proof.
  intros Hl Hn Hm (Hv & Nv) N0 N1 Hc. rewrite foldM_mapp.
  match goal with |- context [foldM ?body _ _] => destruct (foldM_prefix (fun pre st => 
     stack (hrow n l) (fun r a b => m_at (sp_mat (vfind v (prem l r))) a (u (prem l r) + b)) 0 m pre D0 (fst (fst st)) /\
     snd (fst st) = tops (hrow n l) pre /\ snd st = map (fun Q => u (key Q) + if inb (key Q) (map (prem l) pre) then m else 0) v)
     body (corners l) (D0, 0, map (fun Q => u (key Q)) v)) as (((D & o) & offs) & E & S & So & Eoffs) end.
  - split; [apply stack_nil|]. split; [reflexivity|]. cbn [snd]. apply map_ext. intros Q. cbn. lia.
  - intros pre r post ((D & o) & offs) Ec (S & So & Eoffs). cbn [fst snd] in S, So, Eoffs. subst o offs.
    assert (In r (corners l)) as Hr by (rewrite Ec; apply in_app_iff; right; left; auto).
    assert (is_part (n - 1) (prem l r)) as Pr by (eapply corner_part; eauto).
    destruct (Hc r Hr) as (K & U0 & U1). destruct (vfind_key v _ K) as (I & EK). remember (vfind v (prem l r)) as Q eqn:EQ.
    apply in_split in I as (a & b & Ev). destruct (key_split v a Q b Nv Ev) as (Ka & Kb).
    assert (sv_index v (prem l r) = zlen a) as ->.
    { rewrite <- EK. apply (index_split (n - 1) v a Q b); auto. intros P HP. apply Hv. auto. }
    cbv beta iota zeta. rewrite (proj2 (Z.leb_le 0 (zlen a)) (zlen_nonneg a)). cbn [assert_ bind].
    assert (rd v (zlen a) = Ret Q) as -> by (rewrite Ev; apply rd_at). cbn [bind].
    match goal with |- context [map ?g v] => replace (map g v) with (map g a ++ u (key Q) :: map g b) end.
    2:{ rewrite Ev, map_app. cbn [map]. do 2 f_equal. rewrite EK.
        assert (inb (prem l r) (map (prem l) pre) = false) as ->; [|lia].
        apply not_true_iff_false. rewrite inb_iff. intros H. apply in_map_iff in H as (r' & E & Hr').
        assert (In r' (corners l)) as Hr2 by (rewrite Ec; apply in_app_iff; auto).
        apply prem_inj in E; [|eapply is_part_ppos; eauto|apply in_corners in Hr2; lia|apply in_corners in Hr; lia]. subst r'.
        destruct (nodup_split _ _ _ _ (NoDup_corners l) Ec). contradiction. }
    match goal with |- context [map ?g a] => replace (zlen a) with (zlen (map g a)) by (unfold zlen; rewrite map_length; reflexivity) end.
    rewrite rd_at. cbn [bind].
    destruct (Hv Q) as (_ & _ & Q0 & Q1); [rewrite Ev; apply in_app_iff; right; left; auto|]. rewrite EK in Q0. fold (hrow n l r) in Q0. rewrite EK.
    destruct (boff_fit n l r Hl Hn Hr) as (B1 & B2). rewrite (boff_split n l pre r post Ec) in B1, B2. fold (hrow n l r) in B2.
    pose proof (hrow_nonneg n l r) as Hh. pose proof S as (S0 & S1 & _).
    destruct (add_to_block_block_ok D (tops (hrow n l) pre) 0 (sp_mat Q) 0 (u (prem l r)) (m_n0 (sp_mat Q)) m) as (D' & ED & AD); try lia.
    rewrite ED. cbn [bind]. rewrite wr_at. cbn [bind]. eexists. split; [reflexivity|]. cbn [fst snd]. split; [|split].
    + apply (stack_snoc _ _ _ _ pre r D0 D D'); auto. { intros; apply hrow_nonneg. }
      rewrite Q0 in AD. destruct AD as (A0 & A1 & A2). split; [auto|]. split; [auto|]. intros x y. rewrite A2. rewrite <- EQ. rewrite !Z.add_0_r.
      rewrite (Z.add_comm (u (prem l r))). reflexivity.
    + rewrite tops_snoc, Q0. reflexivity.
    + apply (map_upd (fun mu => u mu + (if inb mu (map (prem l) pre) then m else 0)) (fun mu => u mu + (if inb mu (map (prem l) (pre ++ [r])) then m else 0)) v a Q b); auto.
      * rewrite EK. replace (inb (prem l r) (map (prem l) (pre ++ [r]))) with true; [reflexivity|]. symmetry. apply inb_iff. rewrite map_app. apply in_app_iff. right. left. auto.
      * intros mu Hmu. rewrite EK in Hmu. f_equal. replace (inb mu (map (prem l) (pre ++ [r]))) with (inb mu (map (prem l) pre)); [reflexivity|].
        apply eq_true_iff_eq. rewrite !inb_iff, map_app, in_app_iff. cbn [map In]. intuition congruence.
  - exists D, o. cbn [fst snd] in *. subst offs. auto.
Qed.

(* ---- columns ---- *)

Lemma fits_iff mu : forall l, (forall x, In x mu -> 1 <= x) -> (forall x, In x l -> 1 <= x) -> fits mu l = true <-> contained mu l.
Proof.
  induction mu as [|a mu IH]; intros l Hm Hl; cbn [fits].
  - split; auto. intros _ i Hi. unfold row. replace (nth (Z.to_nat i) [] 0) with 0 by (destruct (Z.to_nat i); auto).
    destruct (nth_in_or_default (Z.to_nat i) l 0) as [H|H]; [apply Hl in H; lia|lia].
  - destruct l as [|b l].
    + split; [discriminate|]. intros H. specialize (H 0 ltac:(lia)). unfold row in H. cbn in H. specialize (Hm a (or_introl eq_refl)). lia.
    + rewrite andb_true_iff, Z.leb_le, (IH l (fun x H => Hm x (or_intror H)) (fun x H => Hl x (or_intror H))). split.
      * intros (H1 & H2) i Hi. destruct (Z.eq_dec i 0) as [->|]; [exact H1|]. specialize (H2 (i - 1) ltac:(lia)). unfold row in *.
        replace (Z.to_nat i) with (S (Z.to_nat (i - 1))) by lia. exact H2.
      * intros H. split; [exact (H 0 ltac:(lia))|]. intros i Hi. specialize (H (i + 1) ltac:(lia)). unfold row in *. replace (Z.to_nat (i + 1)) with (S (Z.to_nat i)) in H by lia. exact H.
Qed.

Lemma subs_in n l mu : is_part n l -> 1 <= n -> In mu (map (prem l) (corners l)) <-> is_part (n - 1) mu /\ contained mu l.
Proof.
  intros Hl Hn. destruct (parents_exact n l Hl Hn) as (ps & E & _ & _ & H). unfold ip_parents in E. rewrite (ip_foreach_sub_ok n) in E by auto. apply Ret_inj in E. subst ps. apply H.
Qed.

Lemma fits_inb n l mu : is_part n l -> 1 <= n -> is_part (n - 1) mu -> fits mu l = inb mu (map (prem l) (corners l)).
Proof.
  intros Hl Hn Hm. apply eq_true_iff_eq. rewrite inb_iff, (subs_in n l mu Hl Hn). rewrite fits_iff by (first [apply Hm|apply Hl]). tauto.
Qed.

Lemma used_snoc pre p mu : columns_used (pre ++ [p]) mu = columns_used pre mu + if fits mu (fst p) then snd p else 0.
Proof.
  unfold columns_used. rewrite filter_app, map_app. change (fold_right Z.add 0) with zsum. rewrite zsum_app. cbn [filter]. destruct (fits mu (fst p)); cbn; lia.
Qed.

Lemma used_app pre post mu : columns_used (pre ++ post) mu = columns_used pre mu + columns_used post mu.
Proof. unfold columns_used. rewrite filter_app, map_app. change (fold_right Z.add 0) with zsum. rewrite zsum_app. lia. Qed.

Lemma used_nonneg pre mu : (forall p, In p pre -> 0 <= snd p) -> 0 <= columns_used pre mu.
Proof. intros H. apply zsum_nonneg. intros y Hy. apply in_map_iff in Hy as (p & <- & Hp). apply filter_In in Hp as (Hp & _). auto. Qed.

(* ---- up ---- *)

Definition up_part (n : Z) (v : list spart) (pre : list (list Z * Z)) (p : list Z * Z) (P : spart) : Prop :=
  sp_irr P = mkirr n (fst p) /\ m_n0 (sp_mat P) = io_d (mkirr n (fst p)) /\ m_n1 (sp_mat P) = snd p /\
  forall r a b, In r (corners (fst p)) -> 0 <= a < hrow n (fst p) r -> 0 <= b < snd p ->
    m_at (sp_mat P) (boff n (fst p) r + a) b = m_at (sp_mat (vfind v (prem (fst p) r))) a (columns_used pre (prem (fst p) r) + b).

Definition zp (n : Z) (p : list Z * Z) : spart := mkSpart (mkirr n (fst p)) (mkMat (io_d (mkirr n (fst p))) (snd p) (fun _ _ => 0%R)).

(* the entries with what comes before them *)
Definition befores {A} (d : A) (t : list A) : list (list A * A) := map (fun i => (firstn i t, nth i t d)) (seq 0 (length t)).

Lemma befores_snoc {A} (d : A) t p : befores d (t ++ [p]) = befores d t ++ [(t, p)].
Proof.
  unfold befores. rewrite app_length. cbn [length]. rewrite seq_app, map_app. cbn [seq map]. rewrite Nat.add_0_l. f_equal.
  - apply map_ext_in. intros i Hi. apply in_seq in Hi. rewrite firstn_app, app_nth1 by lia. replace (i - length t)%nat with 0%nat by lia. cbn [firstn]. rewrite app_nil_r. reflexivity.
  - rewrite firstn_app, firstn_all, Nat.sub_diag. cbn [firstn]. rewrite app_nil_r, app_nth2, Nat.sub_diag by lia. reflexivity.
Qed.

Lemma befores_snd {A} (d : A) t : map snd (befores d t) = t.
Proof. induction t as [|p t IH] using rev_ind; auto. rewrite befores_snoc, map_app, IH. reflexivity. Qed.

Lemma befores_at {A} (d : A) pre p post : nth_error (befores d (pre ++ p :: post)) (length pre) = Some (pre, p).
Proof.
  unfold befores. rewrite nth_error_map. assert (nth_error (seq 0 (length (pre ++ p :: post))) (length pre) = Some (length pre)) as ->.
  { rewrite nth_error_nth' with (d := 0%nat) by (rewrite seq_length, app_length; cbn; lia). rewrite seq_nth by (rewrite app_length; cbn; lia). reflexivity. }
  cbn. f_equal. f_equal; [rewrite firstn_app, firstn_all, Nat.sub_diag; cbn; apply app_nil_r|rewrite app_nth2, Nat.sub_diag by lia; reflexivity].
Qed.

Lemma sv_zero_ok n tau : (forall p, In p tau -> is_part n (fst p) /\ 0 <= snd p) -> 1 <= n -> sv_zero tau = Ret (map (zp n) tau).
Proof.
  intros H Hn. unfold sv_zero.
  assert (forall acc, foldM (fun p R => P <- sp_zero (fst p) (snd p) ;; Ret (R ++ [P])) tau acc = Ret (acc ++ map (zp n) tau)) as K; [|apply (K [])].
  induction tau as [|p tau IH]; intros acc; cbn [foldM map]; [rewrite app_nil_r; auto|].
  destruct (H p (or_introl eq_refl)) as (P1 & P2). rewrite (sp_zero_ok n) by auto. cbn [bind]. rewrite IH by (intros; apply H; right; auto). rewrite <- app_assoc. reflexivity.
Qed.

Definition p0 : list Z * Z := ([], 0).

Lemma stack_up n l m v u D0 D : is_part n l -> 2 <= n -> m_n0 D0 = io_d (mkirr n l) ->
  stack (hrow n l) (fun r a b => m_at (sp_mat (vfind v (prem l r))) a (u (prem l r) + b)) 0 m (corners l) D0 D ->
  (forall a b, m_at D0 a b = 0%R) ->
  forall r a b, In r (corners l) -> 0 <= a < hrow n l r -> 0 <= b < m -> m_at D (boff n l r + a) b = m_at (sp_mat (vfind v (prem l r))) a (u (prem l r) + b).
Proof.
  intros Hl Hn D00 (_ & _ & S & _) Z0 r a b Hr Ha Hb. apply in_split in Hr as (pre & post & E). rewrite (boff_split n l pre r post E).
  specialize (S pre r post a b E Ha Hb). rewrite Z0, Rplus_0_l in S. exact S.
Qed.

Lemma Forall2_len {A B} (R : A -> B -> Prop) l l' : Forall2 R l l' -> length l = length l'.
Proof. induction 1; cbn; auto. Qed.

Lemma up_pure n tau v : type_of n tau -> (forall p, In p tau -> 0 <= snd p) -> 2 <= n -> vgood (n - 1) v ->
  (forall l m mu, In (l, m) tau -> In mu (map (prem l) (corners l)) -> In mu (map key v) /\ columns_used tau mu <= m_n1 (sp_mat (vfind v mu))) ->
  exists R, sv_up tau v = Ret R /\ Forall2 (fun q P => up_part n v (fst q) (snd q) P) (befores p0 tau) R.
Proof.
  intros (Ts & Tp) Hm Hn Hv Hc. pose proof (sorted_nodup _ Ts) as Nt. rewrite Forall_forall in Tp.
  assert (forall p, In p tau -> is_part n (fst p)) as Tp' by (intros p Hp; apply Tp, in_map; auto).
  unfold sv_up. rewrite (sv_zero_ok n) by (auto; lia). cbn [bind].
  match goal with |- context [foldM ?body _ _] => destruct (foldM_prefix (fun pre st => 
     snd st = map (fun Q => columns_used pre (key Q)) v /\ 
     exists done, fst st = done ++ map (zp n) (skipn (length pre) tau) /\ Forall2 (fun q P => up_part n v (fst q) (snd q) P) (befores p0 pre) done)
     body tau (map (zp n) tau, repeat 0 (length v))) as ((R & offs) & E & _ & done & ER & F) end.
  - split; [|exists []; split; [reflexivity|constructor]]. cbn [snd]. clear. induction v; cbn; [auto|]. f_equal; auto.
  - intros pre (l, m) post (R & offs) Et (Eo & done & ER & F). cbn [fst snd] in Eo, ER. subst R offs.
    assert (In (l, m) tau) as Hp by (rewrite Et; apply in_app_iff; right; left; auto).
    assert (is_part n l) as Hl by (apply (Tp' _ Hp)).
    assert (0 <= m) as Hm0 by (apply (Hm _ Hp)).
    assert (length pre = length done) as Ld.
    { apply Forall2_len in F. rewrite <- F. unfold befores. rewrite map_length, seq_length. auto. }
    assert (skipn (length pre) tau = (l, m) :: post) as Sk.
    { rewrite Et, skipn_app, skipn_all, Nat.sub_diag. reflexivity. }
    assert (map key done = map fst pre) as Kd.
    { rewrite <- (befores_snd p0 pre), map_map. clear - F. induction F as [|q P qs Ps H F IH]; cbn; [auto|]. rewrite IH. f_equal. unfold key. rewrite (proj1 H). reflexivity. }
    cbn [fst snd]. rewrite Sk. cbn [map].
    assert (sv_index (done ++ zp n (l, m) :: map (zp n) post) l = zlen done) as ->.
    { change l with (key (zp n (l, m))) at 2. apply (index_split n _ done _ (map (zp n) post)); [reflexivity| |].
      - intros Q HQ. apply Tp. rewrite Et, map_app. apply in_app_iff in HQ as [HQ|HQ]; apply in_app_iff.
        + left. rewrite <- Kd. apply in_map. auto.
        + right. change ((l, m) :: post) with ([(l, m)] ++ post). destruct HQ as [<-|HQ]; [left; auto|]. right. apply in_map_iff in HQ as (p & <- & HQ). cbn. apply (in_map fst) in HQ. exact HQ.
      - rewrite Kd. rewrite Et, map_app in Nt. cbn [map fst] in Nt. apply (nodup_split _ _ _ _ Nt eq_refl). }
    cbv beta iota zeta. rewrite rd_at. cbn [bind]. rewrite (ip_foreach_sub_ok n) by (auto; lia). cbn [bind zp fst snd sp_mat sp_irr m_n1].
    destruct (up_inner n l m v (columns_used pre) (mkMat (io_d (mkirr n l)) m (fun _ _ => 0%R))) as (D & o & ED & SD); auto.
    { intros r Hr. destruct (Hc l m (prem l r) Hp) as (C1 & C2); [apply in_map; auto|]. split; [auto|]. split.
      - apply used_nonneg. intros p Hp'. apply Hm. rewrite Et. apply in_app_iff; auto.
      - rewrite Et, used_app in C2. change ((l, m) :: post) with ([] ++ [(l, m)] ++ post) in C2. rewrite app_assoc, used_app, used_snoc in C2. cbn [fst snd] in C2.
        rewrite (fits_inb n l (prem l r)), (proj2 (inb_iff _ _)) in C2; [| |auto|lia|eapply corner_part; eauto].
        + assert (0 <= columns_used post (prem l r)) by (apply used_nonneg; intros p Hp'; apply Hm; rewrite Et; apply in_app_iff; right; right; auto).
          change (columns_used [] (prem l r)) with 0 in C2. lia.
        + apply in_map; auto. }
    cbv beta iota zeta in ED. rewrite ED. cbn [bind]. rewrite wr_at. cbn [bind]. eexists. split; [reflexivity|]. cbn [fst snd]. split.
    + apply map_ext_in. intros Q HQ. rewrite used_snoc. cbn [fst snd]. destruct Hv as (Hv & _). rewrite (fits_inb n l (key Q)) by (auto; try lia; apply Hv; auto). reflexivity.
    + exists (done ++ [mkSpart (mkirr n l) D]). split.
      * rewrite <- app_assoc. cbn [app]. do 2 f_equal. rewrite app_length. cbn [length]. rewrite Et, skipn_app, skipn_all2 by lia. replace (length pre + 1 - length pre)%nat with 1%nat by lia. reflexivity.
      * rewrite befores_snoc. apply Forall2_app; [auto|]. constructor; [|constructor]. cbn [fst snd]. pose proof SD as (S0 & S1 & _). cbn [m_n0 m_n1] in S0, S1.
        split; [reflexivity|]. cbn [fst snd sp_mat]. split; [auto|]. split; [auto|]. apply (stack_up n l m v (columns_used pre) (mkMat (io_d (mkirr n l)) m (fun _ _ => 0%R)) D Hl Hn); [reflexivity|exact SD|reflexivity].
  - exists done. rewrite E. cbn [bind fst] in *. rewrite skipn_all in ER. cbn [map] in ER. rewrite app_nil_r in ER. subst R. auto.
Qed.
