(* One level of the transform upwards and downwards: what the code computes, as sums. *)
From Coq Require Import ZArith List Bool Lia ZifyBool ZifyNat Reals Lra Sorted.
From Verif Require Import Model_Base Model_Perm Model_Sn Model_Part Model_Comb Model_Tab Model_Irrep Model_Fun Model_FFT.
From Verif Require Import Spec_Perm Spec_Part Spec_Tab Spec_Rep Spec_Four.
From Verif Require Import Proof_Base Proof_Perm Proof_Sn Proof_Part Proof_PartProps Proof_Tab Proof_TabProps Proof_Cycles Proof_Cox Proof_Yor Proof_Sum
  Proof_Irrep Proof_Rep Proof_Mat Proof_IrrepProps Proof_JM Proof_Conn Proof_Schur Proof_Restr Proof_UpDown Proof_Complete Proof_View Proof_ViewProps
  Proof_FFTlay Proof_FFTblk Proof_FFTact.
Import ListNotations.
Open Scope Z_scope.

Local Notation pdec := (list_eq_dec Z.eq_dec).

(* ---- loops ---- *)

Lemma foldM_prefix {S I} (P : list I -> S -> Prop) (body : I -> S -> outcome S) xs s : P [] s ->
  (forall pre x post s, xs = pre ++ x :: post -> P pre s -> exists s', body x s = Ret s' /\ P (pre ++ [x]) s') ->
  exists s', foldM body xs s = Ret s' /\ P xs s'.
Proof.
  intros H0 Hs. assert (forall post pre s, xs = pre ++ post -> P pre s -> exists s', foldM body post s = Ret s' /\ P xs s') as K.
  { induction post as [|x post IH]; intros pre s1 E Hp.
    - rewrite app_nil_r in E. subst. exists s1. split; auto.
    - cbn [foldM]. destruct (Hs pre x post s1 E Hp) as (s2 & E2 & P2). rewrite E2. cbn [bind]. apply (IH (pre ++ [x])); auto. rewrite <- app_assoc. auto. }
  apply (K xs []); auto.
Qed.

Lemma foldM_snoc {A B} (R : A -> B -> Prop) (body : A -> list B -> outcome (list B)) xs :
  (forall x w, In x xs -> exists y, body x w = Ret (w ++ [y]) /\ R x y) -> exists ys, foldM body xs [] = Ret ys /\ Forall2 R xs ys.
Proof.
  intros H. apply (foldM_prefix (fun pre ys => Forall2 R pre ys)); [constructor|]. intros pre x post s E F.
  destruct (H x s) as (y & Ey & Ry); [rewrite E; apply in_app_iff; right; left; auto|]. exists (s ++ [y]). split; auto. apply Forall2_app; auto.
Qed.

Lemma F2_len {A B} (R : A -> B -> Prop) xs ys : Forall2 R xs ys -> zlen xs = zlen ys.
Proof. intros H. induction H; [reflexivity|]. rewrite !zlen_cons. lia. Qed.

Lemma F2_rd {A B} (R : A -> B -> Prop) xs ys i d : Forall2 R xs ys -> 0 <= i < zlen xs -> exists y, rd ys i = Ret y /\ R (znth xs i d) y.
Proof.
  intros H. revert i. induction H as [|x y xs ys Hxy H IH]; intros i Hi; [cbn in Hi; lia|]. rewrite zlen_cons in Hi. destruct (Z.eq_dec i 0) as [->|N].
  - exists y. split; auto.
  - destruct (IH (i - 1)) as (z & E & Rz); [lia|]. exists z. rewrite znth_cons by lia. destruct (Z.eqb_spec i 0); [lia|]. split; auto.
    unfold rd in *. destruct (Z.leb_spec 0 i); [|lia]. destruct (Z.leb_spec 0 (i - 1)); [|lia]. replace (Z.to_nat i) with (S (Z.to_nat (i - 1))) by lia. exact E.
Qed.

Lemma F2_impl {A B} (R Q : A -> B -> Prop) xs ys : (forall x y, In x xs -> R x y -> Q x y) -> Forall2 R xs ys -> Forall2 Q xs ys.
Proof. intros H F. induction F; constructor; [apply H; auto; left; auto|]. apply IHF. intros; apply H; auto; right; auto. Qed.

Lemma F2_map_r {A B C} (R : A -> C -> Prop) (f : B -> C) xs ys : Forall2 (fun x y => R x (f y)) xs ys -> Forall2 R xs (map f ys).
Proof. intros F. induction F; constructor; auto. Qed.

(* ---- tensors with given values ---- *)

Definition ten_ok (d N c : Z) (V : Z -> Z -> Z -> R) (T : ten) : Prop :=
  t_n0 T = d /\ t_n1 T = N /\ t_n2 T = c /\ forall i s y, 0 <= i < d -> 0 <= s < N -> 0 <= y < c -> t_at T i s y = V i s y.

Lemma ten_ok_ext d N c V V' T : ten_ok d N c V T -> (forall i s y, 0 <= i < d -> 0 <= s < N -> 0 <= y < c -> V i s y = V' i s y) -> ten_ok d N c V' T.
Proof. intros (A & B & C & E) H. repeat split; auto. intros. rewrite E by auto. auto. Qed.

Lemma row_div N i s : 0 <= s < N -> (i * N + s) / N = i /\ (i * N + s) mod N = s.
Proof. intros H. split; symmetry; [apply (Z.div_unique _ _ _ s); [lia|ring]|apply (Z.mod_unique _ _ i); [lia|ring]]. Qed.

Lemma add_to_block_ok P io jo M d N c e f V W : ten_ok d N c V (mp_t P) -> ten_ok e N f W (mp_t M) -> 0 <= N ->
  0 <= io -> io + e <= d -> 0 <= jo -> jo + f <= c -> 0 <= e ->
  exists T, mp_add_to_block P io jo M = Ret (mkMpart (mp_irr P) T) /\
    ten_ok d N c (fun i s y => V i s y + (if inrange (i - io)%Z e && inrange (y - jo)%Z f then W (i - io)%Z s (y - jo)%Z else 0))%R T.
Proof.
  intros (A & B & C & HV) (A' & B' & C' & HW) HN H1 H2 H3 H4 He. unfold mp_add_to_block, mp_N. rewrite A', B', C', B.
  assert (block_fits (fuse01 (mp_t P)) (io * N) jo (e * N) f = true) as ->.
  { unfold block_fits, fuse01. cbn [m_n0 m_n1]. rewrite A, B, C. nia. }
  eexists. split; [reflexivity|]. unfold ten_ok. cbn [t_n0 t_n1 t_n2 t_at]. rewrite A, C. repeat split; auto. intros i s y Hi Hs Hy. rewrite HV by auto.
  replace (i * N + s - io * N) with ((i - io) * N + s) by ring. replace (inrange ((i - io) * N + s) (e * N)) with (inrange (i - io) e) by (unfold inrange; nia).
  destruct (inrange (i - io) e && inrange (y - jo) f) eqn:Q; [|ring]. unfold fuse01. cbn [m_at]. rewrite B'. destruct (row_div N (i - io) s Hs) as (-> & ->). rewrite HW; [reflexivity| | |]; unfold inrange in Q; lia.
Qed.

Lemma add_block_to_ok P io jo M x d N c e f V W : ten_ok d N c V (mp_t P) -> ten_ok e N f W (mp_t M) -> 0 <= N ->
  0 <= io -> io + e <= d -> 0 <= jo -> jo + f <= c -> 0 <= e ->
  exists T, mp_add_block_to P io jo M x = Ret (mkMpart (mp_irr M) T) /\
    ten_ok e N f (fun i s y => W i s y + x * V (io + i)%Z s (jo + y)%Z)%R T.
Proof.
  intros (A & B & C & HV) (A' & B' & C' & HW) HN H1 H2 H3 H4 He. unfold mp_add_block_to, mp_N. rewrite A', B', C', B. rewrite Z.eqb_refl. cbn [assert_ bind].
  assert (block_fits (fuse01 (mp_t P)) (io * N) jo (e * N) f = true) as ->.
  { unfold block_fits, fuse01. cbn [m_n0 m_n1]. rewrite A, B, C. nia. }
  eexists. split; [reflexivity|]. unfold ten_ok. cbn [t_n0 t_n1 t_n2 t_at]. repeat split; auto. intros i s y Hi Hs Hy. rewrite HW by auto. unfold fuse01. cbn [m_at]. rewrite B.
  replace (io * N + (i * N + s)) with ((io + i) * N + s) by ring. destruct (row_div N (io + i) s Hs) as (-> & ->). rewrite HV by lia. reflexivity.
Qed.

Section Act.
  Variable act : irr -> ccycle -> ten -> outcome ten.

  (* acting on every slice with its own cycle *)
  Lemma slices_by G n l a (cy : Z -> ccycle) (ca cb : Z -> Z) T V c :
    act_by act n G -> is_part n l -> 1 <= n -> 0 <= a -> 0 <= c -> (forall j, 0 <= j < n -> cy j = mkCyc (ca j) (cb j) /\ 1 <= ca j <= n /\ 1 <= cb j <= n) ->
    ten_ok (io_d (mkirr n l)) (a * n) c V T ->
    exists T', zfor 0 n (fun j q => act_slice act a n j (cy j) q) (mkMpart (mkirr n l) T) = Ret (mkMpart (mkirr n l) T') /\
      ten_ok (io_d (mkirr n l)) (a * n) c
        (fun i y k => G l (ca (y mod n)) (cb (y mod n)) (fun q => V q y k) i) T'.
  Proof.
    intros (HG & HA) P Hn Ha Hc Hcy K.
    destruct (zfor_inv (fun j Q => mp_irr Q = mkirr n l /\ ten_ok (io_d (mkirr n l)) (a * n) c
        (fun i y k => if y mod n <? j then G l (ca (y mod n)) (cb (y mod n)) (fun q => V q y k) i else V i y k) (mp_t Q))
      0 n (fun j q => act_slice act a n j (cy j) q) (mkMpart (mkirr n l) T)) as (Q & E & I & KQ).
    - lia.
    - split; auto. cbn [mp_t]. eapply ten_ok_ext; [exact K|]. intros i s y Hi Hs Hy. pose proof (Z.mod_pos_bound s n ltac:(lia)). destruct (Z.ltb_spec (s mod n) 0); [lia|reflexivity].
    - intros j (o1, T1) Hj (E1 & K1). cbn [mp_irr mp_t] in *. subst o1. destruct K1 as (A0 & A1 & A2 & V1). destruct (Hcy j Hj) as (Ec & Hca & Hcb).
      unfold act_slice. cbn [mp_irr mp_t]. unfold slice_get. rewrite A0, A1, A2. replace ((0 <=? a) && (a * n <=? a * n) && inrange j n) with true by (unfold inrange; lia). cbn [bind]. rewrite Ec.
      destruct (HA l (mkTen (io_d (mkirr n l)) a c (fun i s k => t_at T1 i (s * n + j) k)) (ca j) (cb j) P eq_refl Ha Hc Hca Hcb) as (S & ES & ((D0 & D1 & D2) & VS)).
      cbn [t_n0 t_n1 t_n2 t_at] in *. rewrite ES. cbn [bind]. eexists. split; [reflexivity|]. cbn [mp_irr mp_t]. split; auto.
      unfold slice_put, ten_ok. cbn [t_n0 t_n1 t_n2 t_at]. rewrite A0, A1, A2. repeat split; auto. intros i y k Hi Hy Hk.
      pose proof (Z.div_mod y n ltac:(lia)) as DM. pose proof (Z.mod_pos_bound y n ltac:(lia)) as MB. assert (0 <= y / n < a) as DB by (split; [apply Z.div_pos; lia|apply Z.div_lt_upper_bound; nia]).
      destruct (Z.eqb_spec (y mod n) j) as [Ej|Nj].
      + rewrite inrange_true by auto. cbn [andb]. rewrite VS by auto. destruct (Z.ltb_spec (y mod n) (j + 1)); [|lia]. rewrite Ej. apply HG; auto. intros q Hq.
        replace (y / n * n + j) with y by lia. rewrite V1 by auto. destruct (Z.ltb_spec (y mod n) j); [lia|reflexivity].
      + cbn [andb]. rewrite V1 by auto. destruct (Z.ltb_spec (y mod n) j), (Z.ltb_spec (y mod n) (j + 1)); try lia; reflexivity.
    - destruct Q as (o1, T1). cbn [mp_irr mp_t] in *. subst o1. exists T1. split; auto. eapply ten_ok_ext; [exact KQ|]. intros i s y Hi Hs Hy.
      pose proof (Z.mod_pos_bound s n ltac:(lia)). cbv beta. destruct (Z.ltb_spec (s mod n) n); [reflexivity|lia].
  Qed.

  Lemma slices_ok n l a (cy : Z -> ccycle) (ca cb : Z -> Z) T V c :
    act_ok act n -> is_part n l -> 1 <= n -> 0 <= a -> 0 <= c -> (forall j, 0 <= j < n -> cy j = mkCyc (ca j) (cb j) /\ 1 <= ca j <= n /\ 1 <= cb j <= n) ->
    ten_ok (io_d (mkirr n l)) (a * n) c V T ->
    exists T', zfor 0 n (fun j q => act_slice act a n j (cy j) q) (mkMpart (mkirr n l) T) = Ret (mkMpart (mkirr n l) T') /\
      ten_ok (io_d (mkirr n l)) (a * n) c
        (fun i y k => rsum (io_d (mkirr n l)) (fun q => (rr n l (pcyc n (ca (y mod n)) (cb (y mod n))) i q * V q y k)%R)) T'.
  Proof. intros HA. apply (slices_by (cycmat n)). apply act_ok_by. exact HA. Qed.
End Act.

Lemma acc_sum_rsum n f : acc_sum n f = rsum n f.
Proof.
  unfold acc_sum. rewrite rsum_lsum. assert (forall l a, fold_left (fun a t => (a + f t)%R) l a = (a + lsum l f)%R) as K.
  { induction l as [|x l IH]; intros a; cbn [fold_left]; [rewrite lsum_nil; ring|]. rewrite IH, lsum_cons. ring. }
  rewrite K. ring.
Qed.

Section Step.
  Variable m : Z.
  Hypothesis Hm : 1 <= m.
  Local Notation lv k := (m + Z.of_nat k).
  Local Notation dd k l := (io_d (mkirr (lv k) l)).

  (* a vector at level k: part by part the irrep and the values *)
  Definition part_ok (k : nat) (N : Z) (V : list Z -> Z -> Z -> Z -> R) (l : list Z) (P : mpart) : Prop :=
    ((0 < k)%nat -> mp_irr P = mkirr (lv k) l) /\ ten_ok (dd k l) N (mlt m k l) (V l) (mp_t P).
  Definition mv_ok (k : nat) (N : Z) (V : list Z -> Z -> Z -> Z -> R) (v : list mpart) : Prop := Forall2 (part_ok k N V) (qlist m (lv k)) v.

  Lemma mv_ok_ext k N V V' v : (forall l i s y, In l (qlist m (lv k)) -> 0 <= i < dd k l -> 0 <= s < N -> 0 <= y < mlt m k l -> V l i s y = V' l i s y) ->
    mv_ok k N V v -> mv_ok k N V' v.
  Proof. intros H F. eapply F2_impl; [|exact F]. intros l P Hl (A & B). split; auto. eapply ten_ok_ext; eauto. Qed.

  Lemma qlist_nonempty k : In [lv k] (qlist m (lv k)).
  Proof. apply in_qlist; [lia|]. split; [apply is_part_row; lia|]. change (row [lv k] 0) with (lv k). lia. Qed.

  Lemma getN_ok k N V v : mv_ok k N V v -> mv_getN v = Ret N.
  Proof.
    intros F. pose proof (qlist_nonempty k) as I. unfold mv_ok in F. destruct F as [|l P ls v (_ & _ & E & _) F]; [destruct I|]. cbn [mv_getN]. unfold mp_N. rewrite E. reflexivity.
  Qed.

  (* what the upward step computes *)
  Definition blockV (k : nat) (V : list Z -> Z -> Z -> Z -> R) (l : list Z) (rs : list Z) (i s y : Z) : R :=
    lsum rs (fun r => if inrange (i - boff (lv (S k)) l r) (dd k (prem l r)) && inrange (y - jof m k l r) (mlt m k (prem l r))
                      then V (prem l r) (i - boff (lv (S k)) l r) s (y - jof m k l r) else 0%R).
  Definition upV (k : nat) (V : list Z -> Z -> Z -> Z -> R) (l : list Z) (i s y : Z) : R :=
    rsum (lv (S k)) (fun j => rsum (dd (S k) l) (fun q => (rr (lv (S k)) l (pcyc (lv (S k)) (lv (S k) - j) (lv (S k))) i q * blockV k V l (subs m l) q (s * lv (S k) + j) y)%R)).

  Lemma tpart_up_ok k N V v l : mv_ok k N V v -> 0 <= N -> In l (qlist m (lv (S k))) ->
    exists T, tpart_up (lvpart m (S k) l) v = Ret (mkMpart (mkirr (lv (S k)) l) T) /\ ten_ok (dd (S k) l) N (mlt m (S k) l) (blockV k V l (subs m l)) T.
  Proof.
    intros F HN Hl. unfold tpart_up. rewrite (getN_ok k N V v F). cbn [bind]. rewrite lv_irr, lv_blocks by auto. rewrite foldM_map. cbn [bk_i bk_j bk_sub].
    assert (is_part (lv (S k)) l) as P by (apply in_qlist in Hl as (Q & _); [exact Q|lia]).
    destruct (foldM_prefix (fun rs Q => mp_irr Q = mkirr (lv (S k)) l /\ ten_ok (dd (S k) l) N (mlt m (S k) l) (blockV k V l rs) (mp_t Q))
       (fun r P => M <- rd v (pix (prem l r) (qlist m (lv k))) ;; mp_add_to_block P (boff (lv (S k)) l r) (jof m k l r) M) (subs m l)
       (mp_zero N (mkirr (lv (S k)) l) (tp_m (lvpart m (S k) l)))) as (Q & E & I & K).
    - split; [reflexivity|]. repeat split.
    - intros pre r post Q Er (I & K). assert (In r (subs m l)) as Hr by (rewrite Er; apply in_app_iff; right; left; auto).
      destruct (subs_qlist m Hm k l r Hl Hr) as (Hq & Hc). destruct (pix_In _ _ Hq) as (Bx & Ex).
      destruct (F2_rd _ _ _ _ [] F Bx) as (M & EM & (_ & KM)). rewrite Ex in KM. rewrite EM. cbn [bind].
      destruct (boff_fit (lv (S k)) l r P ltac:(lia) Hc) as (B1 & B2). replace (lv (S k) - 1) with (lv k) in B2 by lia. destruct (jof_fit m k l r Hr) as (J1 & J2).
      destruct (add_to_block_ok Q (boff (lv (S k)) l r) (jof m k l r) M _ _ _ _ _ _ _ K KM HN B1 B2 J1 J2 (io_d_nonneg _)) as (T & ET & KT).
      rewrite ET. eexists. split; [reflexivity|]. cbn [mp_irr mp_t]. split; auto. eapply ten_ok_ext; [exact KT|]. intros i s y _ _ _. unfold blockV. rewrite lsum_app, lsum_cons, lsum_nil. ring.
    - destruct Q as (o, T). cbn [mp_irr mp_t] in *. subst o. exists T. split; auto.
  Qed.

  Variable act : irr -> ccycle -> ten -> outcome ten.

  Definition upG (G : list Z -> Z -> Z -> (Z -> R) -> Z -> R) (k : nat) (V : list Z -> Z -> Z -> Z -> R) (l : list Z) (i s y : Z) : R :=
    rsum (lv (S k)) (fun j => G l (lv (S k) - j) (lv (S k)) (fun q => blockV k V l (subs m l) q (s * lv (S k) + j) y) i).

  Lemma up_by G k N V v : act_by act (lv (S k)) G -> mv_ok k (N * lv (S k)) V v -> 0 <= N -> exists w, tlev_up act (level m (S k)) v = Ret w /\ mv_ok (S k) N (upG G k V) w.
  Proof.
    intros HA F HN. unfold tlev_up, level. cbn [tl_n tl_parts]. rewrite (getN_ok k _ V v F). cbn [bind]. set (n := lv (S k)) in *.
    assert (cdiv (N * n) n = Ret N) as ->.
    { unfold cdiv. destruct (Z.eqb_spec n 0); [lia|]. rewrite Z.quot_mul by lia. reflexivity. }
    cbn [bind]. rewrite foldM_map.
    destruct (foldM_snoc (fun l Q => mp_irr Q = mkirr n l /\ ten_ok (dd (S k) l) (N * n) (mlt m (S k) l)
        (fun i y c => G l (n - y mod n) n (fun q => blockV k V l (subs m l) q y c) i) (mp_t Q))
      (fun l w => q <- tpart_up (lvpart m (S k) l) v ;; q <- zfor 0 n (fun j q => act_slice act N n j (mkCyc (n - j) n) q) q ;; Ret (w ++ [q])) (qlist m n)) as (w & E & W).
    { intros l w Hl. assert (is_part n l) as P by (apply in_qlist in Hl as (Q & _); [exact Q|lia]).
      destruct (tpart_up_ok k (N * n) V v l F ltac:(nia) Hl) as (T & ET & KT). rewrite ET. cbn [bind].
      assert (forall j, 0 <= j < n -> mkCyc (n - j) n = mkCyc (n - j) n /\ 1 <= n - j <= n /\ 1 <= n <= n) as Hcy by (intros j Hj; repeat split; lia).
      destruct (slices_by act G n l N (fun j => mkCyc (n - j) n) (fun j => n - j) (fun _ => n) T _ _ HA P ltac:(lia) HN (mlt_nonneg m _ _) Hcy KT) as (T' & ET' & KT').
      cbv beta in ET'. fold n. rewrite ET'. cbn [bind]. eexists. split; [reflexivity|]. cbn [mp_irr mp_t]. split; auto. }
    rewrite E. cbn [bind].
    assert (exists ys, foldM (fun q w => r <- mp_reduce q ;; Ret (w ++ [r])) w [] = Ret ys /\ Forall2 (fun q r => r = mkMpart (mp_irr q) (mkTen (t_n0 (mp_t q)) N (t_n2 (mp_t q)) (fun i s k => acc_sum n (fun t => t_at (mp_t q) i (s * n + t) k)))) w ys) as (ys & EY & Y).
    { apply foldM_snoc. intros q u Hq. destruct (In_nth _ _ q Hq) as (i & Li & Ei). pose proof (F2_len _ _ _ W) as LW. destruct (F2_rd _ _ _ (Z.of_nat i) [] W) as (q' & Eq & Iq & (_ & Q1 & _)); [unfold zlen in *; lia|].
      assert (q' = q) as ->. { rewrite (rd_ok _ _ q) in Eq by (unfold zlen in *; lia). apply Ret_inj in Eq. unfold znth in Eq. rewrite Nat2Z.id in Eq. congruence. }
      set (l := znth (qlist m n) (Z.of_nat i) []) in *. assert (In l (qlist m n)) as Hl by (apply znth_In; unfold zlen in *; lia).
      assert (is_part n l) as P by (apply in_qlist in Hl as (Q & _); [exact Q|lia]).
      unfold mp_reduce. rewrite Iq. cbn [io_lambda mkirr]. change (io_lambda (mkirr n l)) with l. rewrite ip_getn_zsum, (is_part_sum n l P). unfold mp_N. rewrite Q1.
      unfold cdiv. destruct (Z.eqb_spec n 0); [lia|]. rewrite Z.quot_mul by lia. cbn [bind]. eexists. split; [reflexivity|]. reflexivity. }
    exists ys. split; auto.
    assert (forall ls, Forall2 (fun l Q => mp_irr Q = mkirr n l /\ ten_ok (dd (S k) l) (N * n) (mlt m (S k) l)
        (fun i y c => G l (n - y mod n) n (fun q => blockV k V l (subs m l) q y c) i) (mp_t Q)) ls w -> Forall2 (part_ok (S k) N (upG G k V)) ls ys) as K; [|apply K; exact W].
    clear E W EY. induction Y as [|q r w ys -> Y IH]; intros ls W; inversion W as [|l q' ls' w' (Iq & Kq) W']; subst; constructor; auto.
    split; [intros _; exact Iq|]. cbn [mp_t]. destruct Kq as (A & B & C & D). unfold ten_ok. cbn [t_n0 t_n1 t_n2 t_at]. rewrite A, C. repeat split; auto. intros i s y Hi Hs Hy. unfold upG. fold n.
    rewrite acc_sum_rsum. apply rsum_ext. intros j Hj. rewrite D by nia. destruct (row_div n s j Hj) as (_ & ->). reflexivity.
  Qed.

  Lemma up_ok k N V v : act_ok act (lv (S k)) -> mv_ok k (N * lv (S k)) V v -> 0 <= N -> exists w, tlev_up act (level m (S k)) v = Ret w /\ mv_ok (S k) N (upV k V) w.
  Proof. intros HA. apply (up_by (cycmat (lv (S k)))). apply act_ok_by. exact HA. Qed.

  (* what the downward step computes *)
  Definition downT (k : nat) (V : list Z -> Z -> Z -> Z -> R) (lam : list Z) (r : Z) (mu : list Z) (a y c : Z) : R :=
    if pdec (prem lam r) mu then
      (dimR (lv (S k)) lam / (dimR (lv k) mu * IZR (lv (S k))) *
       rsum (dd (S k) lam) (fun q => rr (lv (S k)) lam (pcyc (lv (S k)) (lv (S k)) (lv (S k) - y mod lv (S k))) (boff (lv (S k)) lam r + a) q * V lam q (y / lv (S k))%Z (jof m k lam r + c)%Z))%R
    else 0%R.
  Definition downV (k : nat) (V : list Z -> Z -> Z -> Z -> R) (mu : list Z) (a y c : Z) : R :=
    lsum (qlist m (lv (S k))) (fun lam => lsum (subs m lam) (fun r => downT k V lam r mu a y c)).

  Lemma broadcast_ok d N c V P b : 1 <= b -> ten_ok d N c V (mp_t P) -> ten_ok d (N * b) c (fun i y k => V i (y / b) k) (mp_t (mp_broadcast P b)).
  Proof.
    intros Hb (A & B & C & D). unfold mp_broadcast, ten_ok, mp_N. cbn [mp_t t_n0 t_n1 t_n2 t_at]. rewrite A, B, C. repeat split; auto. intros i y k Hi Hy Hk. apply D; auto.
    split; [apply Z.div_pos; lia|apply Z.div_lt_upper_bound; nia].
  Qed.

  Lemma down_ok k N V v : act_ok act (lv (S k)) -> mv_ok (S k) N V v -> 0 <= N ->
    exists w, tlev_down act (level m k) (level m (S k)) v = Ret w /\ mv_ok k (N * lv (S k)) (downV k V) w /\ (forall P, In P w -> exists l, In l (qlist m (lv k)) /\ mp_irr P = mkirr (lv k) l).
  Proof.
    intros HA F HN. unfold tlev_down. unfold level. cbn [tl_n tl_parts]. rewrite (getN_ok (S k) _ V v F). cbn [bind]. replace (lv k + 1) with (lv (S k)) by lia. set (n := lv (S k)) in *.
    set (U := fun lam i y c => rsum (dd (S k) lam) (fun q => (rr n lam (pcyc n n (n - y mod n)) i q * V lam q (y / n)%Z c)%R)).
    assert (exists VV, foldM (fun q w => q <- zfor 0 n (fun j q => act_slice act N n j (mkCyc n (n - j)) q) q ;; Ret (w ++ [q])) (map (fun q => mp_broadcast q n) v) [] = Ret VV /\
       Forall2 (fun l Q => mp_irr Q = mkirr n l /\ ten_ok (dd (S k) l) (N * n) (mlt m (S k) l) (U l) (mp_t Q)) (qlist m n) VV) as (VV & EV & FV).
    { unfold mv_ok in F. fold n in F. assert (forall l, In l (qlist m n) -> is_part n l) as HP by (intros l Hl; apply in_qlist in Hl as (Q & _); [exact Q|lia]).
      revert HP F. generalize (qlist m n) as ls. intros ls HP F. rewrite foldM_map.
      assert (Forall2 (fun l q => is_part n l /\ part_ok (S k) N V l q) ls v) as F' by (eapply F2_impl; [|exact F]; intros x y Hx Hy; split; auto). clear F HP.
      assert (forall w0, exists VV, foldM (fun q w => q <- zfor 0 n (fun j q => act_slice act N n j (mkCyc n (n - j)) q) (mp_broadcast q n) ;; Ret (w ++ [q])) v w0 = Ret (w0 ++ VV) /\
         Forall2 (fun l Q => mp_irr Q = mkirr n l /\ ten_ok (dd (S k) l) (N * n) (mlt m (S k) l) (U l) (mp_t Q)) ls VV) as K; [|destruct (K []) as (VV & E & W); exists VV; auto].
      induction F' as [|l q ls v (P & I & K) F' IH]; intros w0; [exists []; rewrite app_nil_r; split; [reflexivity|constructor]|]. cbn [foldM].
      pose proof (broadcast_ok _ _ _ _ q n ltac:(lia) K) as KB. specialize (I ltac:(lia)). fold n in I.
      assert (forall j, 0 <= j < n -> mkCyc n (n - j) = mkCyc n (n - j) /\ 1 <= n <= n /\ 1 <= n - j <= n) as Hcy by (intros j Hj; repeat split; lia).
      destruct (slices_ok act n l N (fun j => mkCyc n (n - j)) (fun _ => n) (fun j => n - j) (mp_t (mp_broadcast q n)) _ _ HA P ltac:(lia) HN (mlt_nonneg m _ _) Hcy KB) as (T' & ET' & KT').
      replace (mkMpart (mkirr n l) (mp_t (mp_broadcast q n))) with (mp_broadcast q n) in ET' by (unfold mp_broadcast; cbn [mp_t]; rewrite I; reflexivity).
      cbv beta in ET'. rewrite ET'. cbn [bind]. destruct (IH (w0 ++ [mkMpart (mkirr n l) T'])) as (VV & E & W). rewrite E. exists (mkMpart (mkirr n l) T' :: VV). rewrite <- app_assoc. split; [reflexivity|].
      constructor; auto. }
    rewrite EV. cbn [bind]. clear EV. rewrite map_map.
    set (ok := fun (W : list Z -> Z -> Z -> Z -> R) (R : list mpart) => Forall2 (fun mu M => mp_irr M = mkirr (lv k) mu /\ ten_ok (dd k mu) (N * n) (mlt m k mu) (W mu) (mp_t M)) (qlist m (lv k)) R).
    assert (ok (fun _ _ _ _ => 0%R) (map (fun l => mp_zero (N * n) (tp_irr (lvpart m k l)) (tp_m (lvpart m k l))) (qlist m (lv k)))) as K0.
    { unfold ok. generalize (qlist m (lv k)) as ls. induction ls as [|l ls IH]; cbn [map]; constructor; auto. unfold mp_zero. cbn [mp_irr mp_t]. rewrite lv_irr. split; auto. repeat split. }
    (* one block *)
    assert (forall lam r q R W, In lam (qlist m n) -> In r (subs m lam) -> mp_irr q = mkirr n lam -> ten_ok (dd (S k) lam) (N * n) (mlt m (S k) lam) (U lam) (mp_t q) -> ok W R ->
      exists R', (M <- rd R (pix (prem lam r) (qlist m (lv k))) ;;
                  let c := (IZR (io_d (mp_irr q)) / IZR (io_d (mp_irr M) * n))%R in
                  M <- mp_add_block_to q (boff n lam r) (jof m k lam r) M c ;; wr R (pix (prem lam r) (qlist m (lv k))) M) = Ret R' /\
        ok (fun mu a y c => (W mu a y c + downT k V lam r mu a y c)%R) R') as KB.
    { intros lam r q R W Hl Hr Iq Kq KR. destruct (subs_qlist m Hm k lam r Hl Hr) as (Hq & Hc). destruct (pix_In _ _ Hq) as (Bx & Ex). set (x := pix (prem lam r) (qlist m (lv k))) in *.
      assert (is_part n lam) as P by (apply in_qlist in Hl as (Q & _); [exact Q|lia]).
      destruct (F2_rd _ _ _ x [] KR Bx) as (M & EM & (IM & KM)). rewrite Ex in IM, KM. rewrite EM. cbn [bind]. cbv zeta. rewrite IM, Iq.
      destruct (boff_fit n lam r P ltac:(lia) Hc) as (B1 & B2). replace (n - 1) with (lv k) in B2 by lia. destruct (jof_fit m k lam r Hr) as (J1 & J2).
      destruct (add_block_to_ok q (boff n lam r) (jof m k lam r) M (IZR (io_d (mkirr n lam)) / IZR (dd k (prem lam r) * n))%R _ _ _ _ _ _ _ Kq KM ltac:(nia) B1 B2 J1 J2 (io_d_nonneg _)) as (T & ET & KT).
      rewrite ET. cbn [bind]. pose proof (F2_len _ _ _ KR) as LR. rewrite wr_ok by lia. eexists. split; [reflexivity|]. unfold ok.
      (* entry by entry *)
      assert (forall ls R0, Forall2 (fun mu M => mp_irr M = mkirr (lv k) mu /\ ten_ok (dd k mu) (N * n) (mlt m k mu) (W mu) (mp_t M)) ls R0 -> forall y, 0 <= y < zlen ls -> NoDup ls -> znth ls y [] = prem lam r ->
         Forall2 (fun mu M => mp_irr M = mkirr (lv k) mu /\ ten_ok (dd k mu) (N * n) (mlt m k mu) (fun a y c => (W mu a y c + downT k V lam r mu a y c)%R) (mp_t M)) ls (zupd R0 y (mkMpart (mp_irr M) T))) as Q.
      { clear KR LR EM K0. intros ls R0 F0. induction F0 as [|mu M0 ls R0 (I0 & T0) F0 IH]; intros y Hy ND Ez; [cbn in Hy; lia|]. inversion ND as [|? ? NI ND']; subst. rewrite zlen_cons in Hy.
        destruct (Z.eq_dec y 0) as [->|Ny].
        - change (znth (mu :: ls) 0 []) with mu in Ez. subst mu. change (zupd (M0 :: R0) 0 (mkMpart (mp_irr M) T)) with (mkMpart (mp_irr M) T :: R0). constructor.
          + cbn [mp_irr mp_t]. split; auto. eapply ten_ok_ext; [exact KT|]. intros a y c Ha Hy' Hc'. cbv beta. f_equal. unfold downT. destruct (pdec (prem lam r) (prem lam r)) as [_|C]; [|contradiction]. unfold dimR, U. rewrite mult_IZR. reflexivity.
          + eapply F2_impl; [|exact F0]. intros mu M1 Hmu (I1 & K1). split; auto. eapply ten_ok_ext; [exact K1|]. intros a y c _ _ _. unfold downT. destruct (pdec (prem lam r) mu) as [E|_]; [subst; contradiction|ring].
        - rewrite znth_cons in Ez by lia. destruct (Z.eqb_spec y 0); [lia|].
          replace (zupd (M0 :: R0) y (mkMpart (mp_irr M) T)) with (M0 :: zupd R0 (y - 1) (mkMpart (mp_irr M) T)).
          2:{ unfold zupd. replace (Z.to_nat y) with (S (Z.to_nat (y - 1))) by lia. reflexivity. }
          constructor.
          + split; auto. eapply ten_ok_ext; [exact T0|]. intros a z c _ _ _. unfold downT. destruct (pdec (prem lam r) mu) as [E|_]; [|ring]. exfalso. apply NI. rewrite <- E, <- Ez. apply znth_In. lia.
          + apply IH; auto; lia. }
      eapply Q; eauto. apply NoDup_qlist. }
    rewrite foldM_map.
    destruct (foldM_prefix (fun pre st => fst st = zlen pre /\ ok (fun mu a y c => lsum pre (fun lam => lsum (subs m lam) (fun r => downT k V lam r mu a y c))) (snd st))
       (fun lam st => let '(i, R) := st in q <- rd VV i ;;
                  R <- foldM (fun b R => M <- rd R (bk_sub b) ;; let c := (IZR (io_d (mp_irr q)) / IZR (io_d (mp_irr M) * n))%R in
                                M <- mp_add_block_to q (bk_i b) (bk_j b) M c ;; wr R (bk_sub b) M) (tp_blocks (lvpart m (S k) lam)) R ;; Ret (i + 1, R)) (qlist m n)
       (0, map (fun l => mp_zero (N * n) (tp_irr (lvpart m k l)) (tp_m (lvpart m k l))) (qlist m (lv k)))) as ((i, R) & E & _ & KR).
    - cbn [fst snd]. split; [reflexivity|]. exact K0.
    - intros pre lam post (i, R) El (Ei & KR). cbn [fst snd] in *. subst i.
      assert (In lam (qlist m n)) as Hl by (rewrite El; apply in_app_iff; right; left; auto).
      assert (0 <= zlen pre < zlen (qlist m n)) as Bi by (rewrite El, zlen_app, zlen_cons; pose proof (zlen_nonneg pre); pose proof (zlen_nonneg post); lia).
      destruct (F2_rd _ _ _ (zlen pre) [] FV Bi) as (q & Eq & Iq & Kq). assert (znth (qlist m n) (zlen pre) [] = lam) as Ez.
      { rewrite El. unfold znth, zlen. rewrite Nat2Z.id, app_nth2, Nat.sub_diag by lia. reflexivity. }
      rewrite Ez in Iq, Kq. rewrite Eq. cbn [bind]. unfold n. rewrite lv_blocks by auto. fold n. rewrite foldM_map. cbn [bk_i bk_j bk_sub].
      destruct (foldM_prefix (fun rs R' => ok (fun mu a y c => (lsum pre (fun lam => lsum (subs m lam) (fun r => downT k V lam r mu a y c)) + lsum rs (fun r => downT k V lam r mu a y c))%R) R')
        (fun r R => M <- rd R (pix (prem lam r) (qlist m (lv k))) ;;
                  let c := (IZR (io_d (mp_irr q)) / IZR (io_d (mp_irr M) * n))%R in
                  M <- mp_add_block_to q (boff n lam r) (jof m k lam r) M c ;; wr R (pix (prem lam r) (qlist m (lv k))) M) (subs m lam) R) as (R' & E' & KR').
      + eapply F2_impl; [|exact KR]. intros mu M _ (I1 & K1). split; auto. eapply ten_ok_ext; [exact K1|]. intros. rewrite lsum_nil. ring.
      + intros rs r post' R1 Er K1. destruct (KB lam r q R1 _ Hl ltac:(rewrite Er; apply in_app_iff; right; left; auto) Iq Kq K1) as (R2 & E2 & K2). exists R2. split; [exact E2|].
        eapply F2_impl; [|exact K2]. intros mu M _ (I2 & T2). split; auto. eapply ten_ok_ext; [exact T2|]. intros. rewrite lsum_app, lsum_cons, lsum_nil. ring.
      + cbv zeta in E'. rewrite E'. cbn [bind]. eexists. split; [reflexivity|]. cbn [fst snd]. split; [rewrite zlen_app; reflexivity|].
        eapply F2_impl; [|exact KR']. intros mu M _ (I2 & T2). split; auto. eapply ten_ok_ext; [exact T2|]. intros. rewrite lsum_app, lsum_cons, lsum_nil. ring.
    - cbn [snd] in KR. cbv zeta in E. cbv zeta. rewrite E. cbn [bind snd]. exists R. split; auto. split.
      + eapply F2_impl; [|exact KR]. intros mu M _ (I2 & T2). split; auto.
      + intros Q HQ. destruct (In_nth _ _ Q HQ) as (j & Lj & Ej). pose proof (F2_len _ _ _ KR) as LR. destruct (F2_rd _ _ _ (Z.of_nat j) [] KR) as (q' & Eq & Iq & _); [unfold zlen in *; lia|].
        rewrite (rd_ok _ _ Q) in Eq by (unfold zlen in *; lia). apply Ret_inj in Eq. unfold znth in Eq. rewrite Nat2Z.id in Eq. exists (znth (qlist m (lv k)) (Z.of_nat j) []). split; [apply znth_In; unfold zlen in *; lia|congruence].
  Qed.
End Step.
