(* The model of SnIrrepObj computes Young's orthogonal form. *)
From Coq Require Import ZArith List Bool Lia ZifyBool ZifyNat Reals Lra.
From Verif Require Import Model_Base Model_Perm Model_Part Model_Comb Model_Tab Model_Irrep.
From Verif Require Import Spec_Perm Spec_Part Spec_Tab Proof_Base Proof_Perm Proof_Part Proof_Tab Proof_TabProps Proof_Cycles Proof_Cox Proof_Yor.
Import ListNotations.
Open Scope Z_scope.

Definition good (n : Z) (lambda : list Z) (o : irr) : Prop :=
  is_part n lambda /\ 1 <= n /\ io_n o = n /\ io_lambda o = lambda /\ io_tabs o = map tw (paths (Z.to_nat n) lambda).

Lemma irr_new_ok n lambda : is_part n lambda -> 1 <= n -> exists o, irr_new lambda = Ret o /\ good n lambda o.
Proof.
  intros P Hn. unfold irr_new. rewrite (young_tableaux_ok n) by auto. cbn [bind].
  eexists. split; [reflexivity|]. split; [auto|]. split; [auto|]. cbn. split; [|auto].
  rewrite ip_getn_zsum. apply (is_part_sum _ _ P).
Qed.

Definition tb (o : irr) (i : Z) : list (list Z) := znth (io_tabs o) i [].

Lemma good_tabs n l o : good n l o -> NoDup (io_tabs o) /\ (forall t, In t (io_tabs o) <-> standard l t).
Proof.
  intros (P & Hn & _ & _ & E). destruct (tableaux_complete n l P Hn) as (L & EL & N & I & _).
  rewrite (young_tableaux_ok n) in EL by auto. apply Ret_inj in EL. rewrite E, EL. auto.
Qed.

Lemma tb_standard n l o i : good n l o -> 0 <= i < io_d o -> standard l (tb o i).
Proof. intros G Hi. apply (good_tabs n l o G). apply znth_In. auto. Qed.

Lemma yt_eq_true t u : yt_eq t u = true <-> t = u.
Proof. unfold yt_eq. destruct (list_eq_dec _ t u); split; congruence. Qed.

Lemma tab_index_in ts t : forall i, In t ts -> exists k, tab_index ts t i = i + k /\ 0 <= k < zlen ts /\ znth ts k [] = t.
Proof.
  induction ts as [|u ts IH]; intros i H; [destruct H|]. cbn [tab_index]. rewrite zlen_cons. pose proof (zlen_nonneg ts).
  destruct (yt_eq u t) eqn:E.
  - apply yt_eq_true in E. subst u. exists 0. split; [lia|]. split; [lia|]. rewrite znth_cons by lia. reflexivity.
  - destruct H as [->|H]; [rewrite (proj2 (yt_eq_true t t)) in E by auto; discriminate|].
    destruct (IH (i + 1) H) as (k & E1 & B & Z1). exists (k + 1). split; [lia|]. split; [lia|]. rewrite znth_cons by lia.
    destruct (Z.eqb_spec (k + 1) 0); [lia|]. replace (k + 1 - 1) with k by lia. auto.
Qed.

Lemma tab_index_out ts t : forall i, ~ In t ts -> tab_index ts t i = -1.
Proof.
  induction ts as [|u ts IH]; intros i H; [reflexivity|]. cbn [tab_index]. destruct (yt_eq u t) eqn:E.
  - apply yt_eq_true in E. subst u. exfalso. apply H. left; auto.
  - apply IH. intros K. apply H. right; auto.
Qed.

Definition pos (o : irr) (t : list (list Z)) : Z := irr_index o t.

Lemma pos_standard n l o t : good n l o -> standard l t -> 0 <= pos o t < io_d o /\ tb o (pos o t) = t.
Proof.
  intros G S. apply (good_tabs n l o G) in S. destruct (tab_index_in (io_tabs o) t 0 S) as (k & E & B & Z1).
  unfold pos, irr_index, tb, io_d. rewrite E. replace (0 + k) with k by lia. auto.
Qed.

Lemma pos_tb n l o i : good n l o -> 0 <= i < io_d o -> pos o (tb o i) = i.
Proof.
  intros G Hi. destruct (pos_standard n l o (tb o i) G (tb_standard n l o i G Hi)) as (B & E).
  apply (NoDup_znth (io_tabs o) []); auto. apply (good_tabs n l o G).
Qed.

Lemma transp_tb n l o t tau : good n l o -> standard l t -> 1 <= tau < n -> yt_apply_transp t tau (tau + 1) = Ret (tswap tau (tau + 1) t, del tau t).
Proof.
  intros (P & G) S Ht. destruct (standard_pos n l t tau P S) as (r1 & c1 & C1 & E1 & D1); [lia|].
  destruct (standard_pos n l t (tau + 1) P S) as (r2 & c2 & C2 & E2 & D2); [lia|].
  pose proof (proj1 (has_shape_shp _ _) (proj1 S)) as Hs. pose proof (standard_fill _ _ _ P S) as F.
  rewrite (apply_transp_ok t tau (tau + 1) r1 c1 r2 c2); try rewrite Hs; auto; [|apply F]. unfold del. rewrite D1, D2. reflexivity.
Qed.

(* the slot of the table for the tableau number i *)
Definition adj (z : Z) : bool := (z =? 1) || (z =? -1).
Definition slot (o : irr) (tau i : Z) : Z * R * R :=
  let z := del tau (tb o i) in
  if adj z then (-1, IZR z, 0%R)
  else (pos o (tswap tau (tau + 1) (tb o i)), (1 / IZR z)%R, sqrt (1 - 1 / IZR (z * z))).

Lemma compute_yor_ok n l o : good n l o -> exists b, compute_yor o = Ret b /\ zlen b = io_d o * (n - 1) /\
  forall i tau, 0 <= i < io_d o -> 1 <= tau < n -> znth b (i * (n - 1) + tau - 1) None = Some (slot o tau i).
Proof.
  intros G. pose proof G as (P & Hn & En & El & Et). unfold compute_yor. rewrite En. pose proof (zlen_nonneg (io_tabs o)) as Hd. fold (io_d o) in Hd.
  destruct (Z.ltb_spec (io_d o * (n - 1)) 0); [nia|].
  set (ok := fun (i tau : Z) (b : list (option (Z * R * R))) => zlen b = io_d o * (n - 1) /\
    forall i' tau', 0 <= i' < io_d o -> 1 <= tau' < n -> (i' < i \/ (i' = i /\ tau' < tau)) -> znth b (i' * (n - 1) + tau' - 1) None = Some (slot o tau' i')).
  destruct (zfor_inv (fun i b => ok i 1 b) 0 (io_d o)
    (fun i b => zfor 1 n
         (fun tau b =>
            let ix := i * (n - 1) + tau - 1 in
            t <- rd (io_tabs o) i ;;
            r <- yt_apply_transp t tau (tau + 1) ;;
            let '(t', delta) := r in
            if (delta =? 1) || (delta =? -1) then wr b ix (Some (-1, IZR delta, 0%R))
            else if delta =? 0 then UB
            else wr b ix (Some (irr_index o t', (1 / IZR delta)%R, sqrt (1 - 1 / IZR (delta * delta)))))
         b)
    (repeat None (Z.to_nat (io_d o * (n - 1))))) as (b & E & K1 & K2).
  - lia.
  - split; [rewrite zlen_repeat; lia|]. intros; lia.
  - intros i b Hi K. 
    destruct (zfor_inv (fun tau b => ok i tau b) 1 n
      (fun tau b =>
            let ix := i * (n - 1) + tau - 1 in
            t <- rd (io_tabs o) i ;;
            r <- yt_apply_transp t tau (tau + 1) ;;
            let '(t', delta) := r in
            if (delta =? 1) || (delta =? -1) then wr b ix (Some (-1, IZR delta, 0%R))
            else if delta =? 0 then UB
            else wr b ix (Some (irr_index o t', (1 / IZR delta)%R, sqrt (1 - 1 / IZR (delta * delta))))) b) as (b' & E' & K1' & K2'); auto.
    + intros tau b1 Ht (L1 & V1). rewrite (rd_ok _ _ []) by auto. cbn [bind]. fold (tb o i).
      pose proof (tb_standard n l o i G Hi) as S.
      rewrite (transp_tb n l o (tb o i) tau) by auto. cbn [bind]. fold (adj (del tau (tb o i))).
      pose proof (del_nz n l (tb o i) tau P S Ht) as NZ.
      assert (exists b', (if adj (del tau (tb o i)) then wr b1 (i * (n - 1) + tau - 1) (Some (-1, IZR (del tau (tb o i)), 0%R))
        else if del tau (tb o i) =? 0 then UB else wr b1 (i * (n - 1) + tau - 1)
          (Some (irr_index o (tswap tau (tau + 1) (tb o i)), (1 / IZR (del tau (tb o i)))%R, sqrt (1 - 1 / IZR (del tau (tb o i) * del tau (tb o i))))))
        = Ret b' /\ b' = zupd b1 (i * (n - 1) + tau - 1) (Some (slot o tau i))) as (b' & Eb & Eb').
      { unfold slot. destruct (adj (del tau (tb o i))); [|destruct (Z.eqb_spec (del tau (tb o i)) 0); [lia|]]; rewrite wr_ok by nia; eauto. }
      exists b'. split; [exact Eb|]. subst b'. split; [rewrite zlen_zupd by nia; auto|].
      intros i' tau' Hi' Ht' Hlt. rewrite znth_zupd by nia. destruct (Z.eqb_spec (i' * (n - 1) + tau' - 1) (i * (n - 1) + tau - 1)) as [Q|Q].
      * assert (i' = i) by nia. subst i'. assert (tau' = tau) by lia. subst. reflexivity.
      * apply V1; auto. destruct (Z.eq_dec i' i); [|lia]. subst i'. assert (tau' <> tau) by (intros ->; lia). lia.
    + exists b'. split; [exact E'|]. split; auto. intros i' tau' Hi' Ht' Hlt. apply K2'; auto. lia.
  - exists b. split; [exact E|]. split; auto. intros i tau Hi Ht. apply K2; auto. lia.
Qed.

Lemma yor_get_ok n o b tau i : io_n o = n -> zlen b = io_d o * (n - 1) -> 0 <= i < io_d o -> 1 <= tau < n ->
  znth b (i * (n - 1) + tau - 1) None = Some (slot o tau i) -> yor_get o b tau i = Ret (slot o tau i).
Proof.
  intros En L Hi Ht V. unfold yor_get. rewrite En. rewrite (rd_ok _ _ None) by nia. cbn [bind]. rewrite V. reflexivity.
Qed.

(* ---- matrices ---- *)

Lemma inrange_true i n : 0 <= i < n -> inrange i n = true.
Proof. intros. unfold inrange. lia. Qed.

Lemma mget_ok A i j : 0 <= i < m_n0 A -> 0 <= j < m_n1 A -> mget A i j = Ret (m_at A i j).
Proof. intros. unfold mget. rewrite !inrange_true by lia. reflexivity. Qed.

Lemma mset_ok A i j x : 0 <= i < m_n0 A -> 0 <= j < m_n1 A -> exists A', mset A i j x = Ret A' /\ m_n0 A' = m_n0 A /\ m_n1 A' = m_n1 A /\
  forall a b, m_at A' a b = if (a =? i) && (b =? j) then x else m_at A a b.
Proof. intros. unfold mset. rewrite !inrange_true by lia. eexists. split; [reflexivity|]. cbn. auto. Qed.

Definition incols (beg e j : Z) : bool := (beg <=? j) && (j <? e).

Lemma scale_loop A i c beg e : 0 <= i < m_n0 A -> 0 <= beg -> e <= m_n1 A ->
  exists A', zfor beg e (fun j A => x <- mget A i j ;; mset A i j (c * x)%R) A = Ret A' /\ m_n0 A' = m_n0 A /\ m_n1 A' = m_n1 A /\
    forall a b, m_at A' a b = if (a =? i) && incols beg e b then (c * m_at A i b)%R else m_at A a b.
Proof.
  intros Hi Hb He. destruct (Z_le_dec beg e) as [L|L].
  - destruct (zfor_inv (fun j A' => m_n0 A' = m_n0 A /\ m_n1 A' = m_n1 A /\
      forall a b, m_at A' a b = if (a =? i) && incols beg j b then (c * m_at A i b)%R else m_at A a b) beg e
      (fun j A => x <- mget A i j ;; mset A i j (c * x)%R) A) as (A' & E & K); auto.
    + split; auto. split; auto. intros a b. unfold incols. destruct ((a =? i) && ((beg <=? b) && (b <? beg))) eqn:E; auto. lia.
    + intros j A1 Hj (N0 & N1 & V). rewrite mget_ok by lia. cbn [bind].
      destruct (mset_ok A1 i j (c * m_at A1 i j)%R) as (A2 & E2 & N0' & N1' & V2); [lia|lia|]. exists A2. split; [exact E2|].
      split; [congruence|]. split; [congruence|]. intros a b. rewrite V2, !V. unfold incols. rewrite Z.eqb_refl. cbn [andb].
      destruct (Z.eqb_spec a i) as [->|]; [|reflexivity]. cbn [andb]. destruct (Z.eqb_spec b j) as [->|].
      * destruct ((beg <=? j) && (j <? j)) eqn:Q; [lia|]. destruct ((beg <=? j) && (j <? j + 1)) eqn:Q'; [auto|lia].
      * replace ((beg <=? b) && (b <? j + 1)) with ((beg <=? b) && (b <? j)); [reflexivity|]. lia.
    + exists A'. auto.
  - rewrite zfor_nil by lia. exists A. split; auto. split; auto. split; auto. intros a b. unfold incols.
    destruct ((a =? i) && ((beg <=? b) && (b <? e))) eqn:E; auto. lia.
Qed.

Lemma pair_loop A i i2 c1 c2 beg e : 0 <= i < m_n0 A -> 0 <= i2 < m_n0 A -> i <> i2 -> 0 <= beg -> e <= m_n1 A ->
  exists A', zfor beg e (fun j A => t <- mget A i j ;; x <- mget A i2 j ;; A <- mset A i j (c1 * t + c2 * x)%R ;;
                          x <- mget A i2 j ;; mset A i2 j (- c1 * x + c2 * t)%R) A = Ret A' /\ m_n0 A' = m_n0 A /\ m_n1 A' = m_n1 A /\
    forall a b, m_at A' a b = if (a =? i) && incols beg e b then (c1 * m_at A i b + c2 * m_at A i2 b)%R
                              else if (a =? i2) && incols beg e b then (- c1 * m_at A i2 b + c2 * m_at A i b)%R
                              else m_at A a b.
Proof.
  intros Hi Hi2 Hne Hb He. destruct (Z_le_dec beg e) as [L|L].
  - destruct (zfor_inv (fun j A' => m_n0 A' = m_n0 A /\ m_n1 A' = m_n1 A /\
      forall a b, m_at A' a b = if (a =? i) && incols beg j b then (c1 * m_at A i b + c2 * m_at A i2 b)%R
                              else if (a =? i2) && incols beg j b then (- c1 * m_at A i2 b + c2 * m_at A i b)%R
                              else m_at A a b) beg e
      (fun j A => t <- mget A i j ;; x <- mget A i2 j ;; A <- mset A i j (c1 * t + c2 * x)%R ;;
                          x <- mget A i2 j ;; mset A i2 j (- c1 * x + c2 * t)%R) A) as (A' & E & K); auto.
    + split; auto. split; auto. intros a b. unfold incols. replace ((beg <=? b) && (b <? beg)) with false by lia. rewrite !andb_false_r. reflexivity.
    + intros j A1 Hj (N0 & N1 & V). rewrite !mget_ok by lia. cbn [bind].
      destruct (mset_ok A1 i j (c1 * m_at A1 i j + c2 * m_at A1 i2 j)%R) as (A2 & E2 & N0' & N1' & V2); [lia|lia|]. rewrite E2. cbn [bind].
      rewrite mget_ok by lia. cbn [bind].
      destruct (mset_ok A2 i2 j (- c1 * m_at A2 i2 j + c2 * m_at A1 i j)%R) as (A3 & E3 & N0'' & N1'' & V3); [lia|lia|]. exists A3. split; [exact E3|].
      split; [congruence|]. split; [congruence|].
      assert (m_at A1 i j = m_at A i j) as I1 by (rewrite V; unfold incols; replace ((beg <=? j) && (j <? j)) with false by lia; rewrite !andb_false_r; reflexivity).
      assert (m_at A1 i2 j = m_at A i2 j) as I2 by (rewrite V; unfold incols; replace ((beg <=? j) && (j <? j)) with false by lia; rewrite !andb_false_r; reflexivity).
      assert (m_at A2 i2 j = m_at A i2 j) as I3 by (rewrite V2; destruct (Z.eqb_spec i2 i); [lia|]; cbn [andb]; exact I2).
      intros a b. rewrite V3, I3, V2, I1, I2. destruct (Z.eqb_spec b j) as [->|Nb].
      * rewrite !andb_true_r. unfold incols. replace ((beg <=? j) && (j <? j + 1)) with true by lia. rewrite !andb_true_r.
        destruct (Z.eqb_spec a i2), (Z.eqb_spec a i); auto; try lia. rewrite V. unfold incols. replace ((beg <=? j) && (j <? j)) with false by lia. rewrite !andb_false_r. reflexivity.
      * rewrite !andb_false_r. rewrite V. unfold incols. replace ((beg <=? b) && (b <? j + 1)) with ((beg <=? b) && (b <? j)) by lia. reflexivity.
    + exists A'. auto.
  - rewrite zfor_nil by lia. exists A. split; auto. split; auto. split; auto. intros a b. unfold incols.
    replace ((beg <=? b) && (b <? e)) with false by lia. rewrite !andb_false_r. reflexivity.
Qed.

(* ---- partner rows ---- *)

Definition ptn (o : irr) (tau i : Z) : Z := if adj (del tau (tb o i)) then i else pos o (tswap tau (tau + 1) (tb o i)).

Lemma adj_opp z : adj (- z) = adj z.
Proof. unfold adj. lia. Qed.

Section Partner.
  Variables (n : Z) (l : list Z) (o : irr) (tau : Z).
  Hypothesis G : good n l o.
  Hypothesis Ht : 1 <= tau < n.

  Lemma tb_swap i : 0 <= i < io_d o -> adj (del tau (tb o i)) = false -> standard l (tswap tau (tau + 1) (tb o i)).
  Proof.
    intros Hi A. apply (tswap_standard n); auto; [apply G|eapply tb_standard; eauto| |]; unfold adj in A; lia.
  Qed.

  Lemma ptn_range i : 0 <= i < io_d o -> 0 <= ptn o tau i < io_d o.
  Proof.
    intros Hi. unfold ptn. destruct (adj (del tau (tb o i))) eqn:A; [auto|]. apply (pos_standard n l o _ G). apply tb_swap; auto.
  Qed.

  Lemma tb_ptn i : 0 <= i < io_d o -> adj (del tau (tb o i)) = false -> tb o (ptn o tau i) = tswap tau (tau + 1) (tb o i).
  Proof. intros Hi A. unfold ptn. rewrite A. apply (pos_standard n l o _ G). apply tb_swap; auto. Qed.

  Lemma del_ptn i : 0 <= i < io_d o -> adj (del tau (tb o i)) = false -> del tau (tb o (ptn o tau i)) = - del tau (tb o i).
  Proof.
    intros Hi A. rewrite tb_ptn by auto. apply (del_swap n); auto. apply (standard_fill n l); [apply G|eapply tb_standard; eauto].
  Qed.

  Lemma ptn_ptn i : 0 <= i < io_d o -> ptn o tau (ptn o tau i) = i.
  Proof.
    intros Hi. destruct (adj (del tau (tb o i))) eqn:A; [unfold ptn; rewrite A; rewrite A; reflexivity|].
    unfold ptn at 1. rewrite del_ptn, adj_opp, A, tb_ptn, tswap_inv by auto. eapply pos_tb; eauto.
  Qed.

  Lemma ptn_neq i : 0 <= i < io_d o -> adj (del tau (tb o i)) = false -> ptn o tau i <> i.
  Proof.
    intros Hi A E. pose proof (del_ptn i Hi A) as D. rewrite E in D.
    pose proof (del_nz n l (tb o i) tau ltac:(apply G) ltac:(eapply tb_standard; eauto) Ht). lia.
  Qed.

  Lemma slot_adj i : adj (del tau (tb o i)) = true -> slot o tau i = (-1, IZR (del tau (tb o i)), 0%R).
  Proof. intros A. unfold slot. rewrite A. reflexivity. Qed.

  Lemma slot_pair i : adj (del tau (tb o i)) = false -> slot o tau i = (ptn o tau i, (1 / IZR (del tau (tb o i)))%R, sqrt (1 - 1 / IZR (del tau (tb o i) * del tau (tb o i)))).
  Proof. intros A. unfold slot, ptn. rewrite A. reflexivity. Qed.

  Lemma Dd_div z : (1 / IZR z)%R = Dd z.
  Proof. unfold Dd, Rdiv. ring. Qed.
  Lemma Sd_div z : sqrt (1 - 1 / IZR (z * z)) = Sd z.
  Proof. unfold Sd, Rdiv. f_equal. ring. Qed.
  Lemma Dd_adj z : adj z = true -> IZR z = Dd z.
  Proof. unfold adj. intros A. assert (z = 1 \/ z = -1) as [->| ->] by lia; unfold Dd; field. Qed.

  (* what the action does to a column f of the matrix *)
  Definition col' (f : Z -> R) (i : Z) : R := TT tau (fun t => f (pos o t)) (tb o i).

  Lemma col_adj f i : 0 <= i < io_d o -> adj (del tau (tb o i)) = true -> col' f i = (IZR (del tau (tb o i)) * f i)%R.
  Proof.
    intros Hi A. unfold col', TT. rewrite (pos_tb n l o i G Hi). rewrite Sd_1 by (unfold adj in A; lia). rewrite <- Dd_adj by auto. ring.
  Qed.

  Lemma col_pair f i : 0 <= i < io_d o -> adj (del tau (tb o i)) = false ->
    col' f i = (Dd (del tau (tb o i)) * f i + Sd (del tau (tb o i)) * f (ptn o tau i))%R.
  Proof.
    intros Hi A. unfold col', TT. rewrite (pos_tb n l o i G Hi). unfold ptn. rewrite A. reflexivity.
  Qed.

  Lemma col_pair2 f i : 0 <= i < io_d o -> adj (del tau (tb o i)) = false ->
    col' f (ptn o tau i) = (- Dd (del tau (tb o i)) * f (ptn o tau i) + Sd (del tau (tb o i)) * f i)%R.
  Proof.
    intros Hi A. pose proof (ptn_range i Hi). rewrite col_pair by (auto; rewrite del_ptn, adj_opp; auto).
    rewrite del_ptn, Dd_opp, Sd_opp, ptn_ptn by auto. reflexivity.
  Qed.

  Lemma apply_block_ok beg e A : m_n0 A = io_d o -> 0 <= beg -> e <= m_n1 A ->
    exists A', irr_apply_block o tau beg e A = Ret A' /\ m_n0 A' = m_n0 A /\ m_n1 A' = m_n1 A /\
      forall i j, 0 <= i < io_d o -> m_at A' i j = if incols beg e j then col' (fun k => m_at A k j) i else m_at A i j.
  Proof.
    intros N0 Hb He. unfold irr_apply_block. rewrite N0, Z.eqb_refl. cbn [assert_ bind].
    destruct (compute_yor_ok n l o G) as (yor & Ey & Ly & Vy). rewrite Ey. cbn [bind].
    pose proof (zlen_nonneg (io_tabs o)) as Hd. fold (io_d o) in Hd.
    set (inv := fun (i : Z) (st : mat * list bool) => let '(B, done) := st in m_n0 B = io_d o /\ m_n1 B = m_n1 A /\ zlen done = io_d o /\
      (forall r, 0 <= r < io_d o -> znth done r false = (ptn o tau r <? r) && (ptn o tau r <? i)) /\
      (forall r j, 0 <= r < io_d o -> m_at B r j = if ((r <? i) || (ptn o tau r <? i)) && incols beg e j then col' (fun k => m_at A k j) r else m_at A r j)).
    match goal with |- context [zfor 0 (io_d o) ?b ?s] => set (body := b); set (st0 := s) end.
    destruct (zfor_inv inv 0 (io_d o) body st0) as (st & E & K).
    - lia.
    - unfold st0, inv. split; auto. split; auto. split; [rewrite zlen_repeat; lia|]. split.
      + intros r Hr. rewrite znth_repeat by lia. pose proof (ptn_range r Hr). lia.
      + intros r j Hr. pose proof (ptn_range r Hr). destruct (((r <? 0) || (ptn o tau r <? 0)) && incols beg e j) eqn:Q; auto. lia.
    - intros i (B & done) Hi (M0 & M1 & Ld & Vd & VB). unfold body. rewrite (rd_ok _ _ false) by lia. cbn [bind]. rewrite Vd by auto.
      destruct (Z_lt_dec (ptn o tau i) i) as [Lt|Ge].
      + replace ((ptn o tau i <? i) && (ptn o tau i <? i)) with true by lia. eexists. split; [reflexivity|].
        split; auto. split; auto. split; auto. split.
        * intros r Hr. rewrite Vd by auto. destruct (Z.eq_dec (ptn o tau r) i) as [Q|Q]; [|lia].
          assert (r = ptn o tau i) by (rewrite <- Q; symmetry; apply ptn_ptn; auto). lia.
        * intros r j Hr. rewrite VB by auto. replace ((r <? i + 1) || (ptn o tau r <? i + 1)) with ((r <? i) || (ptn o tau r <? i)); auto.
          destruct (Z.eq_dec r i) as [->|]; [lia|]. destruct (Z.eq_dec (ptn o tau r) i) as [Q|Q]; [|lia].
          assert (r = ptn o tau i) by (rewrite <- Q; symmetry; apply ptn_ptn; auto). lia.
      + replace ((ptn o tau i <? i) && (ptn o tau i <? i)) with false by lia.
        rewrite (yor_get_ok n) by (auto; apply G). cbn [bind].
        destruct (adj (del tau (tb o i))) eqn:AD.
        * assert (ptn o tau i = i) as Pi by (unfold ptn; rewrite AD; auto).
          rewrite slot_adj by auto. cbn [Z.eqb Pos.eqb].
          destruct (scale_loop B i (IZR (del tau (tb o i))) beg e) as (B' & EB & N0' & N1' & VB'); [lia|lia|lia|]. rewrite EB. cbn [bind].
          eexists. split; [reflexivity|]. split; [congruence|]. split; [congruence|]. split; [auto|]. split.
          -- intros r Hr. rewrite Vd by auto. destruct (Z.eq_dec (ptn o tau r) i) as [Q|Q]; [|lia].
             assert (r = ptn o tau i) by (rewrite <- Q; symmetry; apply ptn_ptn; auto). lia.
          -- intros r j Hr. rewrite VB'. rewrite !VB by auto. destruct (Z.eqb_spec r i) as [->|Nr].
             ++ cbn [andb]. rewrite Pi. replace ((i <? i) || (i <? i)) with false by lia. replace ((i <? i + 1) || (i <? i + 1)) with true by lia. cbn [andb].
                destruct (incols beg e j); auto. rewrite col_adj by auto. reflexivity.
             ++ cbn [andb]. replace ((r <? i + 1) || (ptn o tau r <? i + 1)) with ((r <? i) || (ptn o tau r <? i)); auto.
                destruct (Z.eq_dec (ptn o tau r) i) as [Q|Q]; [|lia].
                assert (r = ptn o tau i) by (rewrite <- Q; symmetry; apply ptn_ptn; auto). lia.
        * pose proof (ptn_neq i Hi AD) as Ni. pose proof (ptn_range i Hi) as Ri.
          rewrite slot_pair by auto. destruct (Z.eqb_spec (ptn o tau i) (-1)); [lia|]. rewrite Dd_div, Sd_div.
          destruct (pair_loop B i (ptn o tau i) (Dd (del tau (tb o i))) (Sd (del tau (tb o i))) beg e) as (B' & EB & N0' & N1' & VB'); [lia|lia|lia|lia|lia|].
          rewrite EB. cbn [bind]. rewrite wr_ok by lia. cbn [bind]. eexists. split; [reflexivity|].
          split; [congruence|]. split; [congruence|]. split; [rewrite zlen_zupd; lia|]. split.
          -- intros r Hr. rewrite znth_zupd by lia. destruct (Z.eqb_spec r (ptn o tau i)) as [->|Nr].
             ++ rewrite ptn_ptn by auto. lia.
             ++ rewrite Vd by auto. assert (ptn o tau r <> i) by (intros Q; apply Nr; rewrite <- Q; symmetry; apply ptn_ptn; auto). lia.
          -- intros r j Hr. rewrite VB'. rewrite !VB by auto. rewrite ptn_ptn by auto.
             destruct (Z.eqb_spec r i) as [->|Nr]; [|destruct (Z.eqb_spec r (ptn o tau i)) as [->|Nr2]].
             ++ cbn [andb]. replace ((i <? i) || (ptn o tau i <? i)) with false by lia. replace ((i <? i + 1) || (ptn o tau i <? i + 1)) with true by lia.
                replace ((ptn o tau i <? i) || (i <? i)) with false by lia. cbn [andb].
                destruct (Z.eqb_spec i (ptn o tau i)); [lia|]. cbn [andb]. destruct (incols beg e j); auto. rewrite col_pair by auto. reflexivity.
             ++ cbn [andb]. rewrite ptn_ptn by auto. replace ((i <? i) || (ptn o tau i <? i)) with false by lia. replace ((ptn o tau i <? i + 1) || (i <? i + 1)) with true by lia.
                replace ((ptn o tau i <? i) || (i <? i)) with false by lia. cbn [andb]. destruct (incols beg e j); auto. rewrite col_pair2 by auto. reflexivity.
             ++ cbn [andb]. replace ((r <? i + 1) || (ptn o tau r <? i + 1)) with ((r <? i) || (ptn o tau r <? i)); auto.
                assert (ptn o tau r <> i) by (intros Q; apply Nr2; rewrite <- Q; symmetry; apply ptn_ptn; auto). lia.
    - rewrite E. cbn [bind]. destruct st as (B & done). cbn [fst]. destruct K as (M0 & M1 & _ & _ & VB). exists B. split; [reflexivity|].
      split; [congruence|]. split; [auto|]. intros i j Hi. rewrite VB by auto. replace ((i <? io_d o) || (ptn o tau i <? io_d o)) with true by lia. reflexivity.
  Qed.
End Partner.
