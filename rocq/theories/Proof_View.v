(* The actions on views (C40). *)
From Coq Require Import ZArith List Bool Lia ZifyBool ZifyNat Reals Lra Permutation.
From Verif Require Import Model_Base Model_Perm Model_Sn Model_Part Model_Comb Model_Tab Model_Irrep.
From Verif Require Import Spec_Perm Spec_Part Spec_Tab Spec_Rep Spec_Four.
From Verif Require Import Proof_Base Proof_Perm Proof_Sn Proof_Part Proof_PartProps Proof_Tab Proof_TabProps Proof_Cycles Proof_Cox Proof_Yor Proof_Sum
  Proof_Irrep Proof_Rep Proof_Mat Proof_IrrepProps.
Import ListNotations.
Open Scope Z_scope.

Definition tdims (T T' : ten) : Prop := t_n0 T' = t_n0 T /\ t_n1 T' = t_n1 T /\ t_n2 T' = t_n2 T.

Lemma tdims_refl T : tdims T T. Proof. repeat split. Qed.
Lemma tdims_trans T T' T'' : tdims T T' -> tdims T' T'' -> tdims T T''.
Proof. intros (A & B & C) (A' & B' & C'). repeat split; congruence. Qed.

Lemma tget_ok T i j k : 0 <= i < t_n0 T -> 0 <= j < t_n1 T -> 0 <= k < t_n2 T -> tget T i j k = Ret (t_at T i j k).
Proof. intros. unfold tget. rewrite !inrange_true by lia. reflexivity. Qed.

Lemma tset_ok T i j k x : 0 <= i < t_n0 T -> 0 <= j < t_n1 T -> 0 <= k < t_n2 T -> exists T', tset T i j k x = Ret T' /\ tdims T T' /\
  forall a b c, t_at T' a b c = if (a =? i) && (b =? j) && (c =? k) then x else t_at T a b c.
Proof. intros. unfold tset. rewrite !inrange_true by lia. eexists. split; [reflexivity|]. split; [repeat split|]. reflexivity. Qed.

(* a double loop over the first and last index whose body changes one column *)
Lemma nested_loop (g : (Z -> R) -> Z -> R) (body : Z -> Z -> ten -> outcome ten) T :
  (forall f f' r, (forall r, f r = f' r) -> g f r = g f' r) ->
  (forall a b T1, tdims T T1 -> 0 <= a < t_n0 T -> 0 <= b < t_n2 T -> exists T2, body a b T1 = Ret T2 /\ tdims T1 T2 /\
     forall a' r b', t_at T2 a' r b' = if (a' =? a) && (b' =? b) then g (fun r => t_at T1 a r b) r else t_at T1 a' r b') ->
  0 <= t_n0 T -> 0 <= t_n2 T ->
  exists T', zfor 0 (t_n0 T) (fun a T => zfor 0 (t_n2 T) (fun b T => body a b T) T) T = Ret T' /\ tdims T T' /\
    forall a r b, t_at T' a r b = if incols 0 (t_n0 T) a && incols 0 (t_n2 T) b then g (fun r => t_at T a r b) r else t_at T a r b.
Proof.
  intros Hg Hb H0 H2.
  destruct (zfor_inv (fun i T1 => tdims T T1 /\ forall a r b, t_at T1 a r b = if incols 0 i a && incols 0 (t_n2 T) b then g (fun r => t_at T a r b) r else t_at T a r b)
    0 (t_n0 T) (fun a T => zfor 0 (t_n2 T) (fun b T => body a b T) T) T) as (T' & E & K); auto.
  - split; [apply tdims_refl|]. intros a r b. destruct (incols 0 0 a && incols 0 (t_n2 T) b) eqn:Q; [unfold incols in Q; lia|auto].
  - intros i T1 Hi (D1 & V1). 
    assert (t_n2 T1 = t_n2 T) as N2 by apply D1. rewrite N2.
    destruct (zfor_inv (fun j T2 => tdims T T2 /\ forall a r b, t_at T2 a r b = if (a =? i) && incols 0 j b then g (fun r => t_at T a r b) r else t_at T1 a r b)
      0 (t_n2 T) (fun b T => body i b T) T1) as (T2 & E2 & D2 & V2); auto.
    + split; auto. intros a r b. destruct ((a =? i) && incols 0 0 b) eqn:Q; [unfold incols in Q; lia|auto].
    + intros j T2 Hj (D2 & V2). destruct (Hb i j T2 D2 Hi Hj) as (T3 & E3 & D3 & V3). exists T3. split; [exact E3|]. split; [eapply tdims_trans; eauto|].
      intros a r b. rewrite V3. destruct (Z.eqb_spec a i) as [->|Na]; cbn [andb].
      * destruct (Z.eqb_spec b j) as [->|Nb]; cbn [andb].
        -- replace (incols 0 (j + 1) j) with true by (unfold incols; lia). apply Hg. intros r'. rewrite V2, Z.eqb_refl. cbn [andb].
           replace (incols 0 j j) with false by (unfold incols; lia). rewrite V1. replace (incols 0 i i) with false by (unfold incols; lia). reflexivity.
        -- rewrite V2, Z.eqb_refl. cbn [andb]. replace (incols 0 (j + 1) b) with (incols 0 j b) by (unfold incols; lia). reflexivity.
      * rewrite V2. destruct (Z.eqb_spec a i); [contradiction|reflexivity].
    + exists T2. split; [exact E2|]. split; auto. intros a r b. rewrite V2. destruct (Z.eqb_spec a i) as [->|Na]; cbn [andb].
      * replace (incols 0 (i + 1) i) with true by (unfold incols; lia). cbn [andb]. destruct (incols 0 (t_n2 T) b); auto. rewrite V1.
        replace (incols 0 i i) with false by (unfold incols; lia). reflexivity.
      * rewrite V1. replace (incols 0 (i + 1) a) with (incols 0 i a) by (unfold incols; lia). reflexivity.
  - exists T'. auto.
Qed.

Lemma tscale_loop T i c : 0 <= i < t_n1 T -> 0 <= t_n0 T -> 0 <= t_n2 T ->
  exists T', zfor 0 (t_n0 T) (fun a T => zfor 0 (t_n2 T) (fun b T => x <- tget T a i b ;; tset T a i b (c * x)%R) T) T = Ret T' /\ tdims T T' /\
    forall a r b, t_at T' a r b = if (r =? i) && (incols 0 (t_n0 T) a && incols 0 (t_n2 T) b) then (c * t_at T a i b)%R else t_at T a r b.
Proof.
  intros Hi H0 H2. destruct (nested_loop (fun f r => if r =? i then (c * f i)%R else f r) (fun a b T => x <- tget T a i b ;; tset T a i b (c * x)%R) T) as (T' & E & D & V); auto.
  - intros f f' r H. rewrite !H. reflexivity.
  - intros a b T1 (D0 & D1 & D2) Ha Hb. rewrite tget_ok by lia. cbn [bind].
    destruct (tset_ok T1 a i b (c * t_at T1 a i b)%R) as (T2 & E2 & Dt & V2); try lia. exists T2. split; [exact E2|]. split; auto.
    intros a' r b'. rewrite V2. destruct (Z.eqb_spec a' a) as [->|], (Z.eqb_spec b' b) as [->|], (Z.eqb_spec r i) as [->|]; cbn [andb]; auto.
  - exists T'. split; [exact E|]. split; auto. intros a r b. rewrite V. destruct (incols 0 (t_n0 T) a && incols 0 (t_n2 T) b), (r =? i); reflexivity.
Qed.

Lemma tpair_loop T i i2 c1 c2 : 0 <= i < t_n1 T -> 0 <= i2 < t_n1 T -> i <> i2 -> 0 <= t_n0 T -> 0 <= t_n2 T ->
  exists T', zfor 0 (t_n0 T) (fun a T => zfor 0 (t_n2 T) (fun b T =>
                          t <- tget T a i b ;; x <- tget T a i2 b ;; T <- tset T a i b (c1 * t + c2 * x)%R ;;
                          x <- tget T a i2 b ;; tset T a i2 b (- c1 * x + c2 * t)%R) T) T = Ret T' /\ tdims T T' /\
    forall a r b, t_at T' a r b = if incols 0 (t_n0 T) a && incols 0 (t_n2 T) b then
        (if r =? i then c1 * t_at T a i b + c2 * t_at T a i2 b else if r =? i2 then - c1 * t_at T a i2 b + c2 * t_at T a i b else t_at T a r b)%R else t_at T a r b.
Proof.
  intros Hi Hi2 Ne H0 H2.
  destruct (nested_loop (fun f r => if r =? i then (c1 * f i + c2 * f i2)%R else if r =? i2 then (- c1 * f i2 + c2 * f i)%R else f r)
    (fun a b T => t <- tget T a i b ;; x <- tget T a i2 b ;; T <- tset T a i b (c1 * t + c2 * x)%R ;;
                          x <- tget T a i2 b ;; tset T a i2 b (- c1 * x + c2 * t)%R) T) as (T' & E & D & V); auto.
  - intros f f' r H. rewrite !H. reflexivity.
  - intros a b T1 (D0 & D1 & D2) Ha Hb. rewrite !tget_ok by lia. cbn [bind].
    destruct (tset_ok T1 a i b (c1 * t_at T1 a i b + c2 * t_at T1 a i2 b)%R) as (T2 & E2 & Dt & V2); try lia. rewrite E2. cbn [bind].
    pose proof Dt as (Q0 & Q1 & Q2). rewrite tget_ok by lia. cbn [bind].
    destruct (tset_ok T2 a i2 b (- c1 * t_at T2 a i2 b + c2 * t_at T1 a i b)%R) as (T3 & E3 & Dt3 & V3); try lia.
    exists T3. split; [exact E3|]. split; [eapply tdims_trans; eauto|].
    intros a' r b'. rewrite V3, !V2. rewrite !Z.eqb_refl. destruct (Z.eqb_spec i2 i); [lia|]. cbn [andb].
    destruct (Z.eqb_spec a' a) as [->|], (Z.eqb_spec b' b) as [->|], (Z.eqb_spec r i2), (Z.eqb_spec r i); subst; cbn [andb]; auto; try lia.
  - exists T'. split; [exact E|]. split; auto.
Qed.

Section Views.
  Variables (n : Z) (l : list Z) (o : irr) (tau : Z).
  Hypothesis G : good n l o.
  Hypothesis Ht : 1 <= tau < n.
  Notation pt := (ptn o tau).

  Lemma pt_iff r i : 0 <= r < io_d o -> 0 <= i < io_d o -> (pt r = i <-> r = pt i).
  Proof. intros Hr Hi. split; [intros <-; symmetry|intros ->]; apply (ptn_ptn n l o tau G Ht); auto. Qed.

  Lemma apply_mid_ok T : t_n1 T = io_d o -> 0 <= t_n0 T -> 0 <= t_n2 T ->
    exists T', irr_apply_mid o tau T = Ret T' /\ tdims T T' /\
      forall i a b, 0 <= i < io_d o -> t_at T' a i b = if incols 0 (t_n0 T) a && incols 0 (t_n2 T) b then col' o tau (fun k => t_at T a k b) i else t_at T a i b.
  Proof.
    intros N1 H0 H2. unfold irr_apply_mid. rewrite N1, Z.eqb_refl. cbn [assert_ bind].
    destruct (compute_yor_ok n l o G) as (yor & Ey & Ly & Vy). rewrite Ey. cbn [bind].
    pose proof (zlen_nonneg (io_tabs o)) as Hd. fold (io_d o) in Hd.
    set (on := fun a b => incols 0 (t_n0 T) a && incols 0 (t_n2 T) b).
    set (inv := fun (i : Z) (st : ten * list bool) => let '(B, done) := st in tdims T B /\ zlen done = io_d o /\
      (forall r, 0 <= r < io_d o -> znth done r false = (pt r <? r) && (pt r <? i)) /\
      (forall a r b, 0 <= r < io_d o -> t_at B a r b = if ((r <? i) || (pt r <? i)) && on a b then col' o tau (fun k => t_at T a k b) r else t_at T a r b)).
    match goal with |- context [zfor 0 (io_d o) ?b ?s] => set (body := b); set (st0 := s) end.
    destruct (zfor_inv inv 0 (io_d o) body st0) as (st & E & K).
    - lia.
    - unfold st0, inv. split; [apply tdims_refl|]. split; [rewrite zlen_repeat; lia|]. split.
      + intros r Hr. rewrite znth_repeat by lia. pose proof (ptn_range n l o tau G Ht r Hr). lia.
      + intros a r b Hr. pose proof (ptn_range n l o tau G Ht r Hr). destruct (((r <? 0) || (pt r <? 0)) && on a b) eqn:Q; auto. lia.
    - intros i (B & done) Hi (D & Ld & Vd & VB). unfold body. pose proof D as (D0 & D1 & D2). rewrite (rd_ok _ _ false) by lia. cbn [bind]. rewrite Vd by auto.
      destruct (Z_lt_dec (pt i) i) as [Lt|Ge].
      + replace ((pt i <? i) && (pt i <? i)) with true by lia. eexists. split; [reflexivity|].
        split; auto. split; auto. split.
        * intros r Hr. rewrite Vd by auto. destruct (Z.eq_dec (pt r) i) as [Q|Q]; [|lia]. apply pt_iff in Q; auto. lia.
        * intros a r b Hr. rewrite VB by auto. replace ((r <? i + 1) || (pt r <? i + 1)) with ((r <? i) || (pt r <? i)); auto.
          destruct (Z.eq_dec r i) as [->|]; [lia|]. destruct (Z.eq_dec (pt r) i) as [Q|Q]; [|lia]. apply pt_iff in Q; auto. lia.
      + replace ((pt i <? i) && (pt i <? i)) with false by lia.
        rewrite (yor_get_ok n) by (auto; apply G). cbn [bind].
        destruct (adj (del tau (tb o i))) eqn:AD.
        * assert (pt i = i) as Pi by (unfold ptn; rewrite AD; auto).
          rewrite slot_adj by auto. cbn [Z.eqb Pos.eqb].
          destruct (tscale_loop B i (IZR (del tau (tb o i)))) as (B' & EB & DB & VB'); [lia|lia|lia|]. rewrite EB. cbn [bind].
          eexists. split; [reflexivity|]. split; [eapply tdims_trans; eauto|]. split; [auto|]. split.
          -- intros r Hr. rewrite Vd by auto. destruct (Z.eq_dec (pt r) i) as [Q|Q]; [|lia]. apply pt_iff in Q; auto. lia.
          -- intros a r b Hr. rewrite VB'. rewrite D0, D2. fold (on a b). rewrite !VB by auto. destruct (Z.eqb_spec r i) as [->|Nr].
             ++ cbn [andb]. rewrite Pi. replace ((i <? i) || (i <? i)) with false by lia. replace ((i <? i + 1) || (i <? i + 1)) with true by lia. cbn [andb].
                destruct (on a b); auto. rewrite (col_adj n l) by auto. reflexivity.
             ++ cbn [andb]. replace ((r <? i + 1) || (pt r <? i + 1)) with ((r <? i) || (pt r <? i)); auto.
                destruct (Z.eq_dec (pt r) i) as [Q|Q]; [|lia]. apply pt_iff in Q; auto. lia.
        * pose proof (ptn_neq n l o tau G Ht i Hi AD) as Ni. pose proof (ptn_range n l o tau G Ht i Hi) as Ri.
          rewrite slot_pair by auto. destruct (Z.eqb_spec (pt i) (-1)); [lia|]. rewrite Dd_div, Sd_div.
          destruct (tpair_loop B i (pt i) (Dd (del tau (tb o i))) (Sd (del tau (tb o i)))) as (B' & EB & DB & VB'); [lia|lia|lia|lia|lia|].
          rewrite EB. cbn [bind]. rewrite wr_ok by lia. cbn [bind]. eexists. split; [reflexivity|].
          split; [eapply tdims_trans; eauto|]. split; [rewrite zlen_zupd; lia|]. split.
          -- intros r Hr. rewrite znth_zupd by lia. destruct (Z.eqb_spec r (pt i)) as [->|Nr].
             ++ rewrite (ptn_ptn n l) by auto. lia.
             ++ rewrite Vd by auto. assert (pt r <> i) by (intros Q; apply Nr; apply pt_iff; auto). lia.
          -- intros a r b Hr. rewrite VB'. rewrite D0, D2. fold (on a b). rewrite !VB by auto. rewrite (ptn_ptn n l) by auto.
             destruct (on a b) eqn:On; [|rewrite !andb_false_r; auto]. rewrite !andb_true_r.
             destruct (Z.eqb_spec r i) as [->|Nr]; [|destruct (Z.eqb_spec r (pt i)) as [->|Nr2]].
             ++ replace ((i <? i) || (pt i <? i)) with false by lia. replace ((i <? i + 1) || (pt i <? i + 1)) with true by lia.
                replace ((pt i <? i) || (i <? i)) with false by lia. rewrite (col_pair n l) by auto. reflexivity.
             ++ rewrite (ptn_ptn n l) by auto. replace ((i <? i) || (pt i <? i)) with false by lia. replace ((pt i <? i + 1) || (i <? i + 1)) with true by lia.
                replace ((pt i <? i) || (i <? i)) with false by lia. rewrite (col_pair2 n l) by auto. reflexivity.
             ++ replace ((r <? i + 1) || (pt r <? i + 1)) with ((r <? i) || (pt r <? i)); auto.
                assert (pt r <> i) by (intros Q; apply Nr2; apply pt_iff; auto). lia.
    - rewrite E. cbn [bind]. destruct st as (B & done). cbn [fst]. destruct K as (D & _ & _ & VB). exists B. split; [reflexivity|].
      split; [auto|]. intros i a b Hi. rewrite VB by auto. replace ((i <? io_d o) || (pt i <? io_d o)) with true by lia. reflexivity.
  Qed.

  (* ---- the plan ---- *)
  Definition isadj (r : Z) : bool := pt r =? r.
  Definition isfst (r : Z) : bool := r <? pt r.
  Definition issnd (r : Z) : bool := pt r <? r.
  Definition nest : Prop := forall i i', 0 <= i < io_d o -> 0 <= i' < io_d o -> i < pt i -> i' < pt i' -> i' < pt i.

  Lemma split3 k : (forall r, In r k -> True) -> zlen k = zlen (filter isadj k) + zlen (filter isfst k) + zlen (filter issnd k).
  Proof.
    intros _. induction k as [|r k IH]; [reflexivity|]. cbn [filter]. rewrite zlen_cons, IH. unfold isadj, isfst, issnd.
    destruct (Z.eqb_spec (pt r) r), (Z.ltb_spec r (pt r)), (Z.ltb_spec (pt r) r); rewrite ?zlen_cons; lia.
  Qed.

  Lemma adj_isadj r : 0 <= r < io_d o -> adj (del tau (tb o r)) = isadj r.
  Proof.
    intros Hr. unfold isadj. destruct (adj (del tau (tb o r))) eqn:A.
    - unfold ptn. rewrite A. lia.
    - pose proof (ptn_neq n l o tau G Ht r Hr A). lia.
  Qed.

  Lemma firsts_seconds : zlen (filter isfst (zrange 0 (io_d o))) = zlen (filter issnd (zrange 0 (io_d o))).
  Proof.
    assert (forall f g : Z -> bool, (forall r, 0 <= r < io_d o -> f r = g (pt r)) -> zlen (filter f (zrange 0 (io_d o))) <= zlen (filter g (zrange 0 (io_d o)))) as H.
    { intros f g H. rewrite <- (zlen_map pt). unfold zlen. apply inj_le. apply NoDup_incl_length.
      - apply NoDup_map_inj_in; [|apply NoDup_filter, NoDup_zrange]. intros x y Hx Hy E. apply filter_In in Hx as (Hx & _). apply filter_In in Hy as (Hy & _).
        apply in_zrange in Hx, Hy. rewrite <- (ptn_ptn n l o tau G Ht x Hx), <- (ptn_ptn n l o tau G Ht y Hy), E. reflexivity.
      - intros y Hy. apply in_map_iff in Hy as (x & <- & Hx). apply filter_In in Hx as (Hx & Fx). apply in_zrange in Hx. apply filter_In. split.
        + apply in_zrange. apply (ptn_range n l o tau G Ht); auto.
        + rewrite <- H by auto. auto. }
    pose proof (H isfst issnd) as A. pose proof (H issnd isfst) as B.
    assert (forall r, 0 <= r < io_d o -> isfst r = issnd (pt r)) as A1.
    { intros r Hr. unfold isfst, issnd. rewrite (ptn_ptn n l o tau G Ht r Hr). reflexivity. }
    assert (forall r, 0 <= r < io_d o -> issnd r = isfst (pt r)) as B1.
    { intros r Hr. unfold isfst, issnd. rewrite (ptn_ptn n l o tau G Ht r Hr). reflexivity. }
    specialize (A A1). specialize (B B1). lia.
  Qed.

  Lemma slots_used : (io_d o - zlen (filter isadj (zrange 0 (io_d o)))) / 2 = zlen (filter isfst (zrange 0 (io_d o))).
  Proof.
    pose proof (split3 (zrange 0 (io_d o)) ltac:(auto)) as S. rewrite <- firsts_seconds in S. rewrite zlen_zrange in S. pose proof (io_d_nonneg o).
    replace (io_d o - zlen (filter isadj (zrange 0 (io_d o)))) with (zlen (filter isfst (zrange 0 (io_d o))) * 2) by lia. apply Z.div_mul. lia.
  Qed.

  Lemma slot_of i : nest -> 0 <= i < io_d o -> i < pt i -> i - zlen (filter isadj (zrange 0 i)) = zlen (filter isfst (zrange 0 i)).
  Proof.
    intros N Hi Hf. pose proof (split3 (zrange 0 i) ltac:(auto)) as S. rewrite zlen_zrange in S.
    assert (filter issnd (zrange 0 i) = []) as E.
    { destruct (filter issnd (zrange 0 i)) as [|r k] eqn:Q; auto. exfalso. assert (In r (filter issnd (zrange 0 i))) as I by (rewrite Q; left; auto).
      apply filter_In in I as (I & Sr). apply in_zrange in I. unfold issnd in Sr. assert (0 <= r < io_d o) as Hr by lia.
      pose proof (N (pt r) i (ptn_range n l o tau G Ht r Hr) Hi) as K. rewrite (ptn_ptn n l o tau G Ht r Hr) in K. lia. }
    rewrite E in S. change (zlen (@nil Z)) with 0 in S. lia.
  Qed.

  Lemma filter_snoc (f : Z -> bool) i : 0 <= i -> filter f (zrange 0 (i + 1)) = filter f (zrange 0 i) ++ (if f i then [i] else []).
  Proof. intros Hi. rewrite zrange_snoc by lia. rewrite filter_app. cbn [filter]. reflexivity. Qed.

  Lemma firstn_zupd {A} (q : list A) k x : 0 <= k < zlen q -> firstn (Z.to_nat (k + 1)) (zupd q k x) = firstn (Z.to_nat k) q ++ [x].
  Proof.
    intros H. unfold zupd. unfold zlen in H. rewrite firstn_app, firstn_firstn, firstn_length.
    replace (Nat.min (Z.to_nat (k + 1)) (Z.to_nat k)) with (Z.to_nat k) by lia.
    replace (Z.to_nat (k + 1) - Nat.min (Z.to_nat k) (length q))%nat with 1%nat by lia. cbn [firstn]. reflexivity.
  Qed.

  Definition fdiag (r : Z) : Z * R := (r, IZR (del tau (tb o r))).
  Definition fgiv (r : Z) : Z * Z * R * R := (r, pt r, Dd (del tau (tb o r)), Sd (del tau (tb o r))).

  Lemma plan_ok : nest -> exists nd diags giv, yor_plan o tau = Ret (nd, diags, giv) /\
    firstn (Z.to_nat nd) diags = map fdiag (filter isadj (zrange 0 (io_d o))) /\
    firstn (Z.to_nat ((io_d o - nd) / 2)) giv = map fgiv (filter isfst (zrange 0 (io_d o))).
  Proof.
    intros N. unfold yor_plan. pose proof (io_d_nonneg o) as Hd.
    set (inv := fun (i : Z) (st : Z * list (Z * R) * list (Z * Z * R * R) * list bool) => let '(ix, diags, giv, done) := st in
      ix = zlen (filter isadj (zrange 0 i)) /\ zlen diags = io_d o /\ zlen giv = io_d o / 2 + 1 /\ zlen done = io_d o /\
      firstn (Z.to_nat ix) diags = map fdiag (filter isadj (zrange 0 i)) /\
      firstn (Z.to_nat (zlen (filter isfst (zrange 0 i)))) giv = map fgiv (filter isfst (zrange 0 i)) /\
      (forall r, 0 <= r < io_d o -> znth done r false = (pt r <? r) && (pt r <? i))).
    match goal with |- context [zfor 0 (io_d o) ?b ?s] => set (body := b); set (st0 := s) end.
    assert (forall i f, 0 <= i <= io_d o -> zlen (filter f (zrange 0 i)) <= zlen (filter f (zrange 0 (io_d o)))) as Mono.
    { intros i f Hi. assert (zrange 0 (io_d o) = zrange 0 i ++ zrange i (io_d o)) as Q by (apply zrange_app; lia). rewrite Q, filter_app, zlen_app.
      pose proof (zlen_nonneg (filter f (zrange i (io_d o)))). lia. }
    pose proof (split3 (zrange 0 (io_d o)) ltac:(auto)) as S3. rewrite <- firsts_seconds, zlen_zrange in S3.
    destruct (zfor_inv inv 0 (io_d o) body st0) as (st & E & K).
    - lia.
    - unfold st0, inv. rewrite zrange_nil by lia. cbn [filter map]. change (zlen (@nil Z)) with 0.
      split; auto. split; [rewrite zlen_repeat; lia|]. split; [rewrite zlen_repeat; lia|]. split; [rewrite zlen_repeat; lia|]. split; auto. split; auto.
      intros r Hr. rewrite znth_repeat by lia. pose proof (ptn_range n l o tau G Ht r Hr). lia.
    - intros i (((ix & diags) & giv) & done) Hi (Ex & Ld & Lg & Ldn & Vd & Vg & Vn). unfold body. rewrite (rd_ok _ _ false) by lia. cbn [bind]. rewrite Vn by auto.
      pose proof (tb_standard n l o i G Hi) as S. pose proof (del_nz n l (tb o i) tau ltac:(apply G) S Ht) as NZ.
      pose proof (split3 (zrange 0 i) ltac:(auto)) as Si. rewrite zlen_zrange in Si.
      pose proof (zlen_nonneg (filter isadj (zrange 0 i))). pose proof (zlen_nonneg (filter isfst (zrange 0 i))). pose proof (zlen_nonneg (filter issnd (zrange 0 i))).
      unfold inv. rewrite !filter_snoc by lia.
      destruct (Z_lt_dec (pt i) i) as [Lt|Ge].
      + replace ((pt i <? i) && (pt i <? i)) with true by lia. eexists. split; [reflexivity|].
        assert (isadj i = false) as -> by (unfold isadj; lia). assert (isfst i = false) as -> by (unfold isfst; lia). rewrite !app_nil_r.
        repeat (split; [assumption|]). intros r Hr. rewrite Vn by auto. destruct (Z.eq_dec (pt r) i) as [Q|Q]; [|lia]. apply pt_iff in Q; auto. lia.
      + replace ((pt i <? i) && (pt i <? i)) with false by lia. rewrite (rd_ok _ _ []) by (auto; unfold io_d in *; lia). cbn [bind]. fold (tb o i).
        rewrite (transp_tb n l o (tb o i) tau) by auto. cbn [bind]. fold (adj (del tau (tb o i))). rewrite adj_isadj by auto.
        destruct (isadj i) eqn:A.
        * assert (pt i = i) as Pi by (unfold isadj in A; lia). rewrite wr_ok by lia. cbn [bind]. eexists. split; [reflexivity|].
          assert (isfst i = false) as -> by (unfold isfst; lia). rewrite !app_nil_r.
          split; [rewrite zlen_app; change (zlen [i]) with 1; lia|]. split; [rewrite zlen_zupd by lia; auto|]. split; [auto|]. split; [auto|]. split; [|split; [auto|]].
          -- rewrite firstn_zupd by lia. rewrite Vd, map_app. reflexivity.
          -- intros r Hr. rewrite Vn by auto. destruct (Z.eq_dec (pt r) i) as [Q|Q]; [|lia]. apply pt_iff in Q; auto. lia.
        * assert (pt i <> i) as Pi by (unfold isadj in A; lia). destruct (Z.eqb_spec (del tau (tb o i)) 0); [lia|].
          pose proof (slot_of i N Hi ltac:(lia)) as Sl. rewrite Ex, Sl.
          assert (zlen (filter isfst (zrange 0 i)) < io_d o / 2 + 1) as Bd.
          { pose proof (Mono (i + 1) isfst ltac:(lia)) as M. rewrite filter_snoc in M by lia. assert (isfst i = true) as Fi by (unfold isfst; lia). rewrite Fi, zlen_app in M.
            change (zlen [i]) with 1 in M. pose proof (zlen_nonneg (filter isadj (zrange 0 (io_d o)))).
            assert (zlen (filter isfst (zrange 0 (io_d o))) <= io_d o / 2) by (apply Z.div_le_lower_bound; lia). lia. }
          rewrite wr_ok by lia. cbn [bind]. fold (pos o (tswap tau (tau + 1) (tb o i))).
          assert (pos o (tswap tau (tau + 1) (tb o i)) = pt i) as Ep by (unfold ptn; rewrite adj_isadj, A by auto; reflexivity). rewrite Ep.
          pose proof (ptn_range n l o tau G Ht i Hi) as Ri. rewrite wr_ok by lia. cbn [bind]. eexists. split; [reflexivity|].
          assert (isfst i = true) as -> by (unfold isfst; lia). rewrite app_nil_r. rewrite Dd_div, Sd_div.
          split; [auto|]. split; [auto|]. split; [rewrite zlen_zupd by lia; auto|]. split; [rewrite zlen_zupd by lia; auto|]. split; [congruence|]. split.
          -- rewrite zlen_app. change (zlen [i]) with 1. rewrite firstn_zupd by lia. rewrite Vg, map_app. reflexivity.
          -- intros r Hr. rewrite znth_zupd by lia. destruct (Z.eqb_spec r (pt i)) as [->|Nr].
             ++ rewrite (ptn_ptn n l) by auto. lia.
             ++ rewrite Vn by auto. assert (pt r <> i) by (intros Q; apply Nr; apply pt_iff; auto). lia.
    - rewrite E. cbn [bind]. destruct st as (((ix & diags) & giv) & done). destruct K as (Ex & _ & _ & _ & Vd & Vg & _). exists ix, diags, giv.
      split; [reflexivity|]. split; [auto|]. rewrite Ex, slots_used. exact Vg.
  Qed.

  Lemma fold_scale L : forall T, NoDup L -> let T' := fold_left scale_slice (map fdiag L) T in tdims T T' /\
    forall a b e, t_at T' a b e = if in_dec Z.eq_dec a L then (IZR (del tau (tb o a)) * t_at T a b e)%R else t_at T a b e.
  Proof.
    induction L as [|r L IH]; intros T N; cbn [map fold_left]; cbv zeta.
    - split; [apply tdims_refl|]. intros. destruct (in_dec Z.eq_dec a []) as [[]|]; reflexivity.
    - inv N. destruct (IH (scale_slice T (fdiag r)) H2) as (D & V). split; [eapply tdims_trans; [|exact D]; repeat split|].
      intros a b e. rewrite V. cbn [scale_slice fdiag t_at]. destruct (in_dec Z.eq_dec a L) as [I|I], (in_dec Z.eq_dec a (r :: L)) as [I'|I']; cbn [In] in *.
      + destruct (Z.eqb_spec a r); [subst; contradiction|reflexivity].
      + exfalso; auto.
      + destruct I' as [->|I']; [|contradiction]. rewrite Z.eqb_refl. reflexivity.
      + destruct (Z.eqb_spec a r); [subst; exfalso; auto|reflexivity].
  Qed.

  Lemma fold_givens L : forall T, NoDup L -> (forall r, In r L -> 0 <= r < io_d o /\ r < pt r) -> let T' := fold_left givens_slice (map fgiv L) T in tdims T T' /\
    forall a b e, 0 <= a < io_d o -> t_at T' a b e = if in_dec Z.eq_dec a L then (Dd (del tau (tb o a)) * t_at T a b e + Sd (del tau (tb o a)) * t_at T (pt a) b e)%R
       else if in_dec Z.eq_dec (pt a) L then (- Dd (del tau (tb o (pt a))) * t_at T a b e + Sd (del tau (tb o (pt a))) * t_at T (pt a) b e)%R
       else t_at T a b e.
  Proof.
    induction L as [|r L IH]; intros T N HF; cbn [map fold_left]; cbv zeta.
    - split; [apply tdims_refl|]. intros. destruct (in_dec Z.eq_dec a []) as [[]|], (in_dec Z.eq_dec (pt a) []) as [[]|]; reflexivity.
    - inv N. destruct (IH (givens_slice T (fgiv r)) H2 ltac:(intros; apply HF; right; auto)) as (D & V).
      split; [eapply tdims_trans; [|exact D]; repeat split|]. destruct (HF r (or_introl eq_refl)) as (Rr & Fr).
      intros a b e Ha. rewrite V by auto. pose proof (ptn_range n l o tau G Ht a Ha) as Ra. pose proof (ptn_ptn n l o tau G Ht a Ha) as Pa. pose proof (ptn_ptn n l o tau G Ht r Rr) as Pr.
      cbn [givens_slice fgiv t_at].
      assert (forall x, In x L -> x <> r /\ x <> pt r) as Nx.
      { intros x Hx. split; [intros ->; contradiction|]. intros ->. destruct (HF (pt r) (or_intror Hx)) as (_ & Q). rewrite Pr in Q. lia. }
      destruct (in_dec Z.eq_dec a L) as [I|I].
      + destruct (Nx a I) as (N1 & N2). destruct (in_dec Z.eq_dec a (r :: L)) as [I'|I']; [|exfalso; apply I'; right; auto].
        destruct (Z.eqb_spec a (pt r)); [contradiction|]. destruct (Z.eqb_spec a r); [contradiction|].
        destruct (Z.eqb_spec (pt a) (pt r)) as [Q|]; [exfalso; apply N1; rewrite <- Pa, <- Pr, Q; reflexivity|].
        destruct (Z.eqb_spec (pt a) r) as [Q|]; [apply pt_iff in Q; auto; contradiction|]. reflexivity.
      + destruct (in_dec Z.eq_dec (pt a) L) as [J|J].
        * destruct (Nx _ J) as (N1 & N2). assert (a <> r) by (intros ->; congruence). assert (a <> pt r) as N3 by (intros ->; rewrite Pr in N1; congruence).
          destruct (in_dec Z.eq_dec a (r :: L)) as [[I'|I']|I']; [congruence|contradiction|].
          destruct (in_dec Z.eq_dec (pt a) (r :: L)) as [J'|J']; [|exfalso; apply J'; right; auto].
          destruct (Z.eqb_spec a (pt r)); [contradiction|]. destruct (Z.eqb_spec a r); [contradiction|].
          destruct (Z.eqb_spec (pt a) (pt r)); [contradiction|]. destruct (Z.eqb_spec (pt a) r); [contradiction|]. reflexivity.
        * destruct (in_dec Z.eq_dec a (r :: L)) as [[I'|I']|I']; [|contradiction|].
          -- subst a. destruct (Z.eqb_spec r (pt r)); [lia|]. rewrite Z.eqb_refl. reflexivity.
          -- destruct (in_dec Z.eq_dec (pt a) (r :: L)) as [[J'|J']|J']; [|contradiction|].
             ++ subst r. rewrite Pa, Z.eqb_refl. reflexivity.
             ++ cbn [In] in *. destruct (Z.eqb_spec a (pt r)) as [Q|]; [exfalso; apply J'; left; rewrite Q; auto|]. destruct (Z.eqb_spec a r) as [Q|]; [subst; exfalso; auto|]. reflexivity.
  Qed.

  Lemma apply_view_ok T : nest -> t_n0 T = io_d o ->
    exists T', irr_apply_view o tau T = Ret T' /\ tdims T T' /\
      forall i a b, 0 <= i < io_d o -> t_at T' i a b = col' o tau (fun k => t_at T k a b) i.
  Proof.
    intros N N0. unfold irr_apply_view. rewrite N0, Z.eqb_refl. cbn [assert_ bind]. assert (io_n o = n) as -> by apply G.
    destruct ((tau <? 1) || (n - 1 <? tau)) eqn:Q; [lia|]. destruct (plan_ok N) as (nd & diags & giv & E & V1 & V2). rewrite E. cbn [bind]. rewrite V1, V2.
    destruct (fold_scale (filter isadj (zrange 0 (io_d o))) T) as (D1 & W1); [apply NoDup_filter, NoDup_zrange|].
    set (T1 := fold_left scale_slice (map fdiag (filter isadj (zrange 0 (io_d o)))) T) in *.
    destruct (fold_givens (filter isfst (zrange 0 (io_d o))) T1) as (D2 & W2); [apply NoDup_filter, NoDup_zrange| |].
    { intros r Hr. apply filter_In in Hr as (Hr & Fr). apply in_zrange in Hr. split; auto. unfold isfst in Fr. lia. }
    eexists. split; [reflexivity|]. split; [eapply tdims_trans; eauto|]. intros i a b Hi. rewrite W2 by auto. rewrite !W1.
    pose proof (ptn_range n l o tau G Ht i Hi) as Ri. pose proof (ptn_ptn n l o tau G Ht i Hi) as Pi. pose proof (adj_isadj i Hi) as Ai.
    assert (forall f r, 0 <= r < io_d o -> (In r (filter f (zrange 0 (io_d o))) <-> f r = true)) as InF.
    { intros f r Hr. rewrite filter_In, in_zrange. tauto. }
    destruct (in_dec Z.eq_dec i (filter isfst (zrange 0 (io_d o)))) as [I|I]; rewrite InF in I by auto.
    - assert (isadj i = false) as Na by (unfold isadj, isfst in *; lia).
      destruct (in_dec Z.eq_dec i (filter isadj (zrange 0 (io_d o)))) as [J|J]; rewrite InF in J by auto; [congruence|].
      destruct (in_dec Z.eq_dec (pt i) (filter isadj (zrange 0 (io_d o)))) as [J'|J']; rewrite InF in J' by auto; [unfold isadj, isfst in *; lia|].
      rewrite (col_pair n l) by (auto; congruence). reflexivity.
    - destruct (in_dec Z.eq_dec (pt i) (filter isfst (zrange 0 (io_d o)))) as [I2|I2]; rewrite InF in I2 by auto.
      + assert (isadj i = false) as Na by (unfold isadj, isfst in *; lia).
        destruct (in_dec Z.eq_dec i (filter isadj (zrange 0 (io_d o)))) as [J|J]; rewrite InF in J by auto; [congruence|].
        destruct (in_dec Z.eq_dec (pt i) (filter isadj (zrange 0 (io_d o)))) as [J'|J']; rewrite InF in J' by auto; [unfold isadj, isfst in *; lia|].
        pose proof (col_pair2 n l o tau G Ht (fun k => t_at T k a b) (pt i) Ri) as C. rewrite Pi in C. rewrite C; [reflexivity|].
        rewrite (adj_isadj (pt i) Ri). unfold isadj in *. lia.
      + assert (isadj i = true) as Na by (unfold isadj, isfst in *; lia).
        destruct (in_dec Z.eq_dec i (filter isadj (zrange 0 (io_d o)))) as [J|J]; rewrite InF in J by auto; [|contradiction].
        rewrite (col_adj n l) by (auto; congruence). reflexivity.
  Qed.
End Views.

Section Acts.
  Variables (n : Z) (l : list Z) (o : irr).
  Hypothesis G : good n l o.

  Lemma acts_mid n0 n2 : 0 <= n0 -> 0 <= n2 -> acts n o (irr_apply_mid o) (fun T => t_n0 T = n0 /\ t_n1 T = io_d o /\ t_n2 T = n2)
    (fun T (c : Z * Z) i => t_at T (fst c) i (snd c)) (fun c => incols 0 n0 (fst c) && incols 0 n2 (snd c)).
  Proof.
    intros H0 H2 tau T Ht (N0 & N1 & N2). destruct (apply_mid_ok n l o tau G Ht T) as (T' & E & (D0 & D1 & D2) & V); [auto|lia|lia|].
    exists T'. split; auto. split; [repeat split; congruence|]. intros (a, b) i Hi. cbn [fst snd]. rewrite V by auto. rewrite N0, N2. reflexivity.
  Qed.

  Lemma acts_view n1 n2 : (forall tau, 1 <= tau < n -> nest o tau) -> acts n o (irr_apply_view o) (fun T => t_n0 T = io_d o /\ t_n1 T = n1 /\ t_n2 T = n2)
    (fun T (c : Z * Z) i => t_at T i (fst c) (snd c)) (fun _ => true).
  Proof.
    intros N tau T Ht (N0 & N1 & N2). destruct (apply_view_ok n l o tau G Ht T) as (T' & E & (D0 & D1 & D2) & V); auto.
    exists T'. split; auto. split; [repeat split; congruence|]. intros (a, b) i Hi. cbn [fst snd]. rewrite V by auto. reflexivity.
  Qed.

  Definition moved_mid (p : list Z) (T : ten) (r : outcome ten) : Prop := exists T', r = Ret T' /\ tdims T T' /\
    forall a i b, 0 <= a < t_n0 T -> 0 <= i < io_d o -> 0 <= b < t_n2 T -> t_at T' a i b = rsum (io_d o) (fun k => (rho n o p i k * t_at T a k b)%R).
  Definition moved_view (p : list Z) (T : ten) (r : outcome ten) : Prop := exists T', r = Ret T' /\ tdims T T' /\
    forall i a b, 0 <= i < io_d o -> t_at T' i a b = rsum (io_d o) (fun k => (rho n o p i k * t_at T k a b)%R).

  Lemma mid_perm_ok p T : is_perm n p -> t_n1 T = io_d o -> 0 <= t_n0 T -> 0 <= t_n2 T -> moved_mid p T (irr_mid_perm o p T).
  Proof.
    intros P N1 H0 H2. unfold irr_mid_perm. replace (io_n o) with n by (symmetry; apply G).
    destruct (acts_perm n l o G _ _ _ _ (acts_mid (t_n0 T) (t_n2 T) H0 H2) p T P (conj eq_refl (conj N1 eq_refl))) as (T' & E & (D0 & D1 & D2) & V).
    exists T'. split; auto. split; [repeat split; congruence|]. intros a i b Ha Hi Hb. specialize (V (a, b) i Hi). cbn [fst snd] in V. rewrite V.
    rewrite !incols_in by auto. cbn [andb]. apply (Phi_sum n l o G p (fun k => t_at T a k b)); auto.
  Qed.
  Lemma mid_cycle_ok a b T : 1 <= a <= n -> 1 <= b <= n -> t_n1 T = io_d o -> 0 <= t_n0 T -> 0 <= t_n2 T -> moved_mid (pcyc n a b) T (irr_mid_cycle o (mkCyc a b) T).
  Proof.
    intros Ha Hb N1 H0 H2. unfold irr_mid_cycle.
    destruct (acts_cycle n l o G _ _ _ _ (acts_mid (t_n0 T) (t_n2 T) H0 H2) a b T Ha Hb (conj eq_refl (conj N1 eq_refl))) as (T' & E & (D0 & D1 & D2) & V).
    exists T'. split; auto. split; [repeat split; congruence|]. intros x i y Hx Hi Hy. specialize (V (x, y) i Hi). cbn [fst snd] in V. rewrite V.
    rewrite !incols_in by auto. cbn [andb]. apply (Phi_sum n l o G _ (fun k => t_at T x k y)); auto. apply is_perm_pcyc; auto.
  Qed.
  Lemma mid_transp_ok a b T : 1 <= a <= n -> 1 <= b <= n -> t_n1 T = io_d o -> 0 <= t_n0 T -> 0 <= t_n2 T -> moved_mid (ptransp n a b) T (irr_mid_transp o (mkTransp a b) T).
  Proof.
    intros Ha Hb N1 H0 H2. unfold irr_mid_transp.
    destruct (acts_transp n l o G _ _ _ _ (acts_mid (t_n0 T) (t_n2 T) H0 H2) a b T Ha Hb (conj eq_refl (conj N1 eq_refl))) as (T' & E & (D0 & D1 & D2) & V).
    exists T'. split; auto. split; [repeat split; congruence|]. intros x i y Hx Hi Hy. specialize (V (x, y) i Hi). cbn [fst snd] in V. rewrite V.
    rewrite !incols_in by auto. cbn [andb]. apply (Phi_sum n l o G _ (fun k => t_at T x k y)); auto. apply is_perm_ptransp; auto.
  Qed.

  Section Nested.
    Hypothesis N : forall tau, 1 <= tau < n -> nest o tau.
    Lemma view_perm_ok p T : is_perm n p -> t_n0 T = io_d o -> moved_view p T (irr_view_perm o p T).
    Proof.
      intros P N0. unfold irr_view_perm. replace (io_n o) with n by (symmetry; apply G).
      destruct (acts_perm n l o G _ _ _ _ (acts_view (t_n1 T) (t_n2 T) N) p T P (conj N0 (conj eq_refl eq_refl))) as (T' & E & (D0 & D1 & D2) & V).
      exists T'. split; auto. split; [repeat split; congruence|]. intros i a b Hi. specialize (V (a, b) i Hi). cbn [fst snd] in V. rewrite V.
      apply (Phi_sum n l o G p (fun k => t_at T k a b)); auto.
    Qed.
    Lemma view_cycle_ok a b T : 1 <= a <= n -> 1 <= b <= n -> t_n0 T = io_d o -> moved_view (pcyc n a b) T (irr_view_cycle o (mkCyc a b) T).
    Proof.
      intros Ha Hb N0. unfold irr_view_cycle.
      destruct (acts_cycle n l o G _ _ _ _ (acts_view (t_n1 T) (t_n2 T) N) a b T Ha Hb (conj N0 (conj eq_refl eq_refl))) as (T' & E & (D0 & D1 & D2) & V).
      exists T'. split; auto. split; [repeat split; congruence|]. intros i x y Hi. specialize (V (x, y) i Hi). cbn [fst snd] in V. rewrite V.
      apply (Phi_sum n l o G _ (fun k => t_at T k x y)); auto. apply is_perm_pcyc; auto.
    Qed.
    Lemma view_transp_ok a b T : 1 <= a <= n -> 1 <= b <= n -> t_n0 T = io_d o -> moved_view (ptransp n a b) T (irr_view_transp o (mkTransp a b) T).
    Proof.
      intros Ha Hb N0. unfold irr_view_transp.
      destruct (acts_transp n l o G _ _ _ _ (acts_view (t_n1 T) (t_n2 T) N) a b T Ha Hb (conj N0 (conj eq_refl eq_refl))) as (T' & E & (D0 & D1 & D2) & V).
      exists T'. split; auto. split; [repeat split; congruence|]. intros i x y Hi. specialize (V (x, y) i Hi). cbn [fst snd] in V. rewrite V.
      apply (Phi_sum n l o G _ (fun k => t_at T k x y)); auto. apply is_perm_ptransp; auto.
    Qed.
  End Nested.
End Acts.
