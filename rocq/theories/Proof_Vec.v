(* Block copies, and SnVec: down, up, cat, accumulate_up. *)
From Coq Require Import ZArith List Bool Lia Reals Lra Sorting.Sorted Permutation.
From Verif Require Import Model_Base Model_Perm Model_Sn Model_Part Model_Comb Model_Tab Model_Irrep Model_Type Model_FFT Model_Vec.
From Verif Require Import Spec_Perm Spec_Part Spec_Tab Spec_Rep Spec_Four Spec_Type Spec_FFT Spec_Vec.
From Verif Require Import Proof_Base Proof_Perm Proof_Sn Proof_Part Proof_PartProps Proof_Tab Proof_TabProps Proof_Cycles Proof_Cox Proof_Yor Proof_Sum Proof_Irrep Proof_Rep Proof_Mat Proof_IrrepProps Proof_JM Proof_Conn Proof_Schur Proof_Restr Proof_UpDown Proof_Complete Proof_CharBank Proof_Type Proof_FFTlay Proof_FFTblk Proof_FFTstep.
Import ListNotations.
Open Scope Z_scope.

Lemma inrange_iff i n : inrange i n = true <-> 0 <= i < n.
Proof. unfold inrange. lia. Qed.

(* A' is A with f added to the block of h rows and w columns at (io,jo) *)
Definition added (io jo h w : Z) (f : Z -> Z -> R) (A A' : mat) : Prop :=
  m_n0 A' = m_n0 A /\ m_n1 A' = m_n1 A /\
  forall a b, m_at A' a b = if inrange (a - io) h && inrange (b - jo) w then (m_at A a b + f (a - io)%Z (b - jo)%Z)%R else m_at A a b.

Lemma minc_ok A i j x : 0 <= i < m_n0 A -> 0 <= j < m_n1 A -> exists A', minc A i j x = Ret A' /\ m_n0 A' = m_n0 A /\ m_n1 A' = m_n1 A /\
  forall a b, m_at A' a b = if (a =? i) && (b =? j) then (m_at A a b + x)%R else m_at A a b.
Proof.
  intros Hi Hj. unfold minc, mget, mset. rewrite (proj2 (inrange_iff i _) Hi), (proj2 (inrange_iff j _) Hj). cbn [andb bind m_n0 m_n1].
  eexists. split; [reflexivity|]. cbn [m_n0 m_n1 m_at]. split; [auto|]. split; [auto|]. intros a b.
  destruct (Z.eqb_spec a i) as [->|]; [|reflexivity]. destruct (Z.eqb_spec b j) as [->|]; reflexivity.
Qed.

Lemma add_loop (g : Z -> Z -> outcome R) f A io jo h w : 0 <= io -> io + h <= m_n0 A -> 0 <= jo -> jo + w <= m_n1 A -> 0 <= h -> 0 <= w ->
  (forall i j, 0 <= i < h -> 0 <= j < w -> g i j = Ret (f i j)) ->
  exists A', zfor 0 h (fun i A => zfor 0 w (fun j A => x <- g i j ;; minc A (i + io) (j + jo) x) A) A = Ret A' /\ added io jo h w f A A'.
Proof.
  intros Hio Hh Hjo Hw h0 w0 Hg.
  apply (zfor_inv (fun k A' => added io jo k w f A A')); [auto| |].
  - split; [auto|]. split; [auto|]. intros a b. replace (inrange (a - io) 0) with false by (unfold inrange; lia). reflexivity.
  - intros i B Hi (N0 & N1 & V).
    destruct (zfor_inv (fun k B' => m_n0 B' = m_n0 A /\ m_n1 B' = m_n1 A /\
       forall a b, m_at B' a b = if (a =? i + io) && inrange (b - jo) k then (m_at B a b + f i (b - jo)%Z)%R else m_at B a b) 0 w
       (fun j A => x <- g i j ;; minc A (i + io) (j + jo) x) B) as (B' & E & M0 & M1 & W); [auto| | |].
    + split; [auto|]. split; [auto|]. intros a b. replace (inrange (b - jo) 0) with false by (unfold inrange; lia). rewrite andb_false_r. reflexivity.
    + intros j C Hj (C0 & C1 & VC). rewrite Hg by auto. cbn [bind].
      destruct (minc_ok C (i + io) (j + jo) (f i j)) as (C' & EC & D0 & D1 & VD); [lia|lia|].
      exists C'. split; [exact EC|]. split; [congruence|]. split; [congruence|]. intros a b. rewrite VD, VC.
      destruct (Z.eqb_spec a (i + io)) as [->|]; cbn [andb]; [|reflexivity].
      destruct (Z.eqb_spec b (j + jo)) as [->|Nb].
      * replace (j + jo - jo) with j by lia. replace (inrange j j) with false by (unfold inrange; lia). replace (inrange j (j + 1)) with true by (unfold inrange; lia). reflexivity.
      * replace (inrange (b - jo) (j + 1)) with (inrange (b - jo) j) by (unfold inrange; lia). reflexivity.
    + exists B'. split; [exact E|]. split; [auto|]. split; [auto|]. intros a b. rewrite W, V.
      destruct (Z.eqb_spec a (i + io)) as [->|Na]; cbn [andb].
      * replace (i + io - io) with i by lia. replace (inrange i i) with false by (unfold inrange; lia). replace (inrange i (i + 1)) with true by (unfold inrange; lia). reflexivity.
      * replace (inrange (a - io) (i + 1)) with (inrange (a - io) i) by (unfold inrange; lia). reflexivity.
Qed.

Lemma mget_ok A i j : 0 <= i < m_n0 A -> 0 <= j < m_n1 A -> mget A i j = Ret (m_at A i j).
Proof. intros Hi Hj. unfold mget. rewrite (proj2 (inrange_iff i _) Hi), (proj2 (inrange_iff j _) Hj). reflexivity. Qed.

Lemma add_to_block_ok A io jo M : 0 <= io -> io + m_n0 M <= m_n0 A -> 0 <= jo -> jo + m_n1 M <= m_n1 A -> 0 <= m_n0 M -> 0 <= m_n1 M ->
  exists A', sp_add_to_block A io jo M = Ret A' /\ added io jo (m_n0 M) (m_n1 M) (m_at M) A A'.
Proof. intros. unfold sp_add_to_block. apply add_loop; auto. intros. apply mget_ok; auto. Qed.

Lemma add_block_to_ok A io jo M : 0 <= io -> io + m_n0 M <= m_n0 A -> 0 <= jo -> jo + m_n1 M <= m_n1 A -> 0 <= m_n0 M -> 0 <= m_n1 M ->
  exists M', sp_add_block_to A io jo M 1 = Ret M' /\ added 0 0 (m_n0 M) (m_n1 M) (fun i j => m_at A (i + io) (j + jo)) M M'.
Proof.
  intros. unfold sp_add_block_to. cbv zeta.
  destruct (add_loop (fun i j => x <- mget A (i + io) (j + jo) ;; Ret (x * 1)%R) (fun i j => m_at A (i + io) (j + jo)) M 0 0 (m_n0 M) (m_n1 M)) as (M' & E & K); try lia.
  - intros i j Hi Hj. rewrite mget_ok by lia. cbn [bind]. f_equal. ring.
  - exists M'. split; [|exact K]. rewrite <- E. unfold zfor. apply foldM_ext. intros i s Hi. apply foldM_ext. intros j t Hj. rewrite bind_assoc. cbn [bind]. rewrite !Z.add_0_r. reflexivity.
Qed.

Lemma add_to_block_block_ok A io jo M i' j' h w : 0 <= io -> io + h <= m_n0 A -> 0 <= jo -> jo + w <= m_n1 A -> 0 <= h -> 0 <= w ->
  0 <= i' -> i' + h <= m_n0 M -> 0 <= j' -> j' + w <= m_n1 M ->
  exists A', sp_add_to_block_block A io jo M i' j' h w = Ret A' /\ added io jo h w (fun i j => m_at M (i + i') (j + j')) A A'.
Proof. intros. unfold sp_add_to_block_block. apply add_loop; auto. intros. apply mget_ok; lia. Qed.

Lemma block2_add_ok A io jo M i' j' h w : 0 <= io -> io + h <= m_n0 A -> 0 <= jo -> jo + w <= m_n1 A -> 0 <= h -> 0 <= w ->
  0 <= i' -> i' + h <= m_n0 M -> 0 <= j' -> j' + w <= m_n1 M ->
  exists A', block2_add A io jo M i' j' h w = Ret A' /\ added io jo h w (fun i j => m_at M (i + i') (j + j')) A A'.
Proof.
  intros. unfold block2_add. replace (block_fits A io jo h w && block_fits M i' j' h w) with true by (unfold block_fits; lia).
  eexists. split; [reflexivity|]. split; [reflexivity|]. split; [reflexivity|]. intros a b. cbn [m_at]. reflexivity.
Qed.

(* ---- blocks on top of each other ---- *)

Lemma nil_or_snoc {A} (l : list A) : l = [] \/ exists l' x, l = l' ++ [x].
Proof. destruct l as [|a l] using rev_ind; [left; auto|right; eauto]. Qed.

Section Tops.
  Context {X : Type} (h : X -> Z).
  Definition tops (xs : list X) : Z := zsum (map h xs).

  Lemma tops_snoc xs x : tops (xs ++ [x]) = tops xs + h x.
  Proof. unfold tops. rewrite map_app, zsum_app. cbn [map]. rewrite zsum_cons. change (zsum []) with 0. lia. Qed.

  Lemma tops_app xs ys : tops (xs ++ ys) = tops xs + tops ys.
  Proof. unfold tops. rewrite map_app, zsum_app. reflexivity. Qed.

  Lemma tops_cons x ys : tops (x :: ys) = h x + tops ys.
  Proof. reflexivity. Qed.

  Lemma tops_nonneg xs : (forall x, In x xs -> 0 <= h x) -> 0 <= tops xs.
  Proof. intros H. apply zsum_nonneg. intros y Hy. apply in_map_iff in Hy as (x & <- & Hx). auto. Qed.

End Tops.

Section Stack.
  Context {X : Type} (h : X -> Z) (f : X -> Z -> Z -> R) (co w : Z).
  Definition stack (xs : list X) (D0 D : mat) : Prop :=
    m_n0 D = m_n0 D0 /\ m_n1 D = m_n1 D0 /\
    (forall pre x post a b, xs = pre ++ x :: post -> 0 <= a < h x -> 0 <= b < w -> m_at D (tops h pre + a) (co + b) = (m_at D0 (tops h pre + a)%Z (co + b)%Z + f x a b)%R) /\
    (forall a b, ~ (0 <= a < tops h xs /\ 0 <= b - co < w) -> m_at D a b = m_at D0 a b).

  Lemma stack_nil D0 : stack [] D0 D0.
  Proof. split; [auto|]. split; [auto|]. split; [|auto]. intros pre x post a b E. destruct pre; discriminate. Qed.

  Lemma stack_snoc xs x D0 D D' : (forall y, In y (xs ++ [x]) -> 0 <= h y) -> stack xs D0 D -> added (tops h xs) co (h x) w (f x) D D' -> stack (xs ++ [x]) D0 D'.
  Proof.
    intros Hp (N0 & N1 & V & W) (M0 & M1 & A). split; [congruence|]. split; [congruence|].
    assert (0 <= h x) as Hx by (apply Hp; apply in_app_iff; right; left; auto).
    assert (0 <= tops h xs) as Ht by (apply tops_nonneg; intros; apply Hp; apply in_app_iff; auto).
    split.
    - intros pre y post a b E Ha Hb. rewrite A.
      destruct (nil_or_snoc post) as [->|(post' & z & ->)].
      + apply app_inj_tail in E as (-> & ->). replace (tops h pre + a - tops h pre) with a by lia. replace (co + b - co) with b by lia.
        rewrite (proj2 (inrange_iff _ _) Ha), (proj2 (inrange_iff _ _) Hb). cbn [andb]. f_equal. apply W. lia.
      + rewrite app_comm_cons, app_assoc in E. apply app_inj_tail in E as (-> & ->).
        rewrite tops_app, tops_cons in Ht. rewrite !tops_app, !tops_cons.
        assert (0 <= tops h post') by (apply tops_nonneg; intros; apply Hp; apply in_app_iff; left; apply in_app_iff; right; right; auto).
        replace (inrange (tops h pre + a - (tops h pre + (h y + tops h post'))) (h z)) with false by (unfold inrange; lia). cbn [andb]. apply (V pre y post'); auto.
    - intros a b H. rewrite tops_snoc in H. rewrite A. destruct (inrange (a - tops h xs) (h x) && inrange (b - co) w) eqn:Q.
      + apply andb_true_iff in Q as (Q1 & Q2). apply inrange_iff in Q1, Q2. lia.
      + apply W. lia.
  Qed.
End Stack.

(* ---- the rows of a part in blocks ---- *)

Definition hrow (n : Z) (l : list Z) (r : Z) : Z := io_d (mkirr (n - 1) (prem l r)).

Lemma hrow_nonneg n l r : 0 <= hrow n l r.
Proof. apply io_d_nonneg. Qed.

Lemma boff_split n l pre r post : corners l = pre ++ r :: post -> boff n l r = tops (hrow n l) pre.
Proof.
  intros E. unfold boff. rewrite E.
  assert (idx r (pre ++ r :: post) = zlen pre) as ->.
  { pose proof (idx_znth (corners l) (zlen pre) (NoDup_corners l)) as H. rewrite E in H. rewrite znth_app in H by apply zlen_nonneg.
    destruct (Z.ltb_spec (zlen pre) (zlen pre)); [lia|]. rewrite Z.sub_diag in H. change (znth (r :: post) 0 0) with r in H. apply H.
    rewrite zlen_app, zlen_cons. pose proof (zlen_nonneg pre). pose proof (zlen_nonneg post). lia. }
  unfold offset, ds, tops, hrow. rewrite E, map_app. unfold zlen. rewrite Nat2Z.id, firstn_app, map_length, Nat.sub_diag. cbn [firstn]. rewrite app_nil_r.
  rewrite firstn_all2 by (rewrite map_length; lia). reflexivity.
Qed.

Lemma tops_corners n l : is_part n l -> 2 <= n -> tops (hrow n l) (corners l) = io_d (mkirr n l).
Proof. intros P Hn. destruct (mkirr_ok n l P ltac:(lia)) as (_ & G). rewrite (d_blocks n l _ Hn G). reflexivity. Qed.

Lemma part_good n l m P : is_part n l -> 1 <= n -> part_of l m P -> sp_irr P = mkirr n l /\ m_n0 (sp_mat P) = io_d (mkirr n l) /\ m_n1 (sp_mat P) = m /\ 0 <= m.
Proof.
  intros Hl Hn (E & D & M & Hm). destruct (mkirr_ok n l Hl Hn) as (E' & _). rewrite E' in E. apply Ret_inj in E. rewrite <- E in *. auto.
Qed.

Lemma good_part n l m P : is_part n l -> 1 <= n -> sp_irr P = mkirr n l -> m_n0 (sp_mat P) = io_d (mkirr n l) -> m_n1 (sp_mat P) = m -> 0 <= m -> part_of l m P.
Proof. intros Hl Hn E D M Hm. destruct (mkirr_ok n l Hl Hn) as (E' & _). unfold part_of. rewrite E. auto. Qed.

Lemma sp_zero_ok n l m : is_part n l -> 1 <= n -> 0 <= m -> sp_zero l m = Ret (mkSpart (mkirr n l) (mkMat (io_d (mkirr n l)) m (fun _ _ => 0%R))).
Proof.
  intros Hl Hn Hm. unfold sp_zero. destruct (mkirr_ok n l Hl Hn) as (E & _). rewrite E. cbn [bind]. destruct (Z.ltb_spec m 0); [lia|]. reflexivity.
Qed.

(* the part for prem l r: the block of rows *)
Definition down_part (n : Z) (l : list Z) (m : Z) (P : spart) (r : Z) (Q : spart) : Prop :=
  sp_irr Q = mkirr (n - 1) (prem l r) /\ m_n0 (sp_mat Q) = hrow n l r /\ m_n1 (sp_mat Q) = m /\
  forall a b, 0 <= a < hrow n l r -> 0 <= b < m -> m_at (sp_mat Q) a b = m_at (sp_mat P) (boff n l r + a) b.

Lemma down_pure n l m P : is_part n l -> 2 <= n -> part_of l m P -> exists V, sv_down P = Ret V /\ Forall2 (down_part n l m P) (corners l) V.
Proof.
  intros Hl Hn HP. destruct (part_good n l m P Hl ltac:(lia) HP) as (EI & D0 & D1 & Hm).
  unfold sv_down. rewrite EI. cbn [mkirr io_lambda]. rewrite (ip_foreach_sub_ok n) by (auto; lia). cbn [bind]. rewrite D1, foldM_mapp.
  destruct (foldM_prefix (fun pre st => Forall2 (down_part n l m P) pre (fst st) /\ snd st = tops (hrow n l) pre)
    (fun r st => let '(R, offs) := st in Q <- sp_zero (prem l r) m ;; B <- sp_add_block_to (sp_mat P) offs 0 (sp_mat Q) 1 ;; Ret (R ++ [mkSpart (sp_irr Q) B], offs + m_n0 B))
    (corners l) ([], 0)) as ((V & o) & E & F & _).
  - split; [constructor|reflexivity].
  - intros pre r post (V & o) Ec (F & Eo). cbn [fst snd] in F, Eo. subst o.
    assert (In r (corners l)) as Hr by (rewrite Ec; apply in_app_iff; right; left; auto).
    assert (is_part (n - 1) (prem l r)) as Pr by (eapply corner_part; eauto).
    rewrite (sp_zero_ok (n - 1)) by (auto; lia). cbn [bind sp_mat sp_irr].
    destruct (boff_fit n l r Hl Hn Hr) as (B1 & B2). rewrite (boff_split n l pre r post Ec) in B1, B2. fold (hrow n l r) in B2. fold (hrow n l r).
    destruct (add_block_to_ok (sp_mat P) (tops (hrow n l) pre) 0 (mkMat (hrow n l r) m (fun _ _ => 0%R))) as (B & EB & N0 & N1 & VB); cbn [m_n0 m_n1] in *; try lia.
    { apply hrow_nonneg. }
    rewrite EB. cbn [bind]. eexists. split; [reflexivity|]. cbn [fst snd]. split.
    + apply Forall2_app; [auto|]. constructor; [|constructor]. split; [reflexivity|]. cbn [sp_mat]. split; [auto|]. split; [auto|].
      intros a b Ha Hb. rewrite VB. rewrite !Z.sub_0_r. rewrite (proj2 (inrange_iff _ _) Ha), (proj2 (inrange_iff _ _) Hb). cbn [andb m_at].
      rewrite (boff_split n l pre r post Ec), Rplus_0_l, Z.add_0_r. f_equal. lia.
    + rewrite tops_snoc, N0. reflexivity.
  - exists V. rewrite E. cbn [bind fst]. auto.
Qed.
