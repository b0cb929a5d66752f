(* Learning Clebsch-Gordan factors: the columns of the factors are picked from the eigenvectors. *)
From Coq Require Import ZArith List Bool Lia Reals Lra Sorting.Sorted Permutation.
From Verif Require Import Model_Base Model_Perm Model_Sn Model_Part Model_Comb Model_Tab Model_Irrep Model_Type Model_FFT Model_Vec Model_Char Model_CG Model_CGvec Model_VecB Model_Prod Model_Learn.
From Verif Require Import Spec_Perm Spec_Part Spec_Tab Spec_Rep Spec_Four Spec_Type Spec_FFT Spec_Vec Spec_CG Spec_CGvec Spec_VecB Spec_Prod.
From Verif Require Import Proof_Base Proof_Perm Proof_Sn Proof_Part Proof_PartProps Proof_Tab Proof_TabProps Proof_Cycles Proof_Cox Proof_Yor Proof_Sum Proof_Irrep Proof_Rep Proof_Mat Proof_IrrepProps Proof_JM Proof_Conn Proof_Schur Proof_Restr Proof_UpDown Proof_Complete Proof_Char Proof_CharBank Proof_Type Proof_Rept Proof_FFTmath Proof_FFTlay Proof_FFTlay2 Proof_FFTblk Proof_FFTstep Proof_Vec Proof_Vec2 Proof_Vec3 Proof_Vec4 Proof_Vec5 Proof_Vec6 Proof_Vec7 Proof_Vec8 Proof_Kron Proof_CG Proof_CGdown Proof_CGvec1 Proof_CGvec2 Proof_CGvec3 Proof_CGvec4 Proof_CGvec5 Proof_CGvec6 Proof_CGvec7 Proof_Prod Proof_Hook Proof_Isot Proof_View Proof_VecB Proof_VecB2 Proof_Learn1 Proof_Learn2 Proof_Learn3.
Import ListNotations.
Open Scope Z_scope.

Lemma row_le n l i : is_part n l -> 0 <= i -> row l i <= n.
Proof.
  intros P Hi. pose proof (is_part_anti n l 0 i P ltac:(lia)) as A. pose proof (is_part_ppos _ _ P) as Pp. pose proof (is_part_sum _ _ P) as Sm. destruct l as [|z l]; [cbn in *; lia|]. apply ppos_inv in Pp as (_ & Pp). pose proof (zsum_ppos l Pp). change (zsum (z :: l)) with (z + zsum l)%Z in Sm. change (row (z :: l) 0) with z in A. lia.
Qed.
Lemma skipn_nth {A} (l : list A) j d : (j < length l)%nat -> skipn j l = nth j l d :: skipn (S j) l.
Proof. revert j. induction l as [|x l IH]; intros [|j] H; cbn in *; try lia; auto. apply IH. lia. Qed.
Lemma firstn_S_nth {A} (l : list A) j d : (j < length l)%nat -> firstn (S j) l = firstn j l ++ [nth j l d].
Proof. revert j. induction l as [|x l IH]; intros [|j] H; cbn in *; try lia; auto. f_equal. apply IH. lia. Qed.
Lemma NoDup_app_disj {A} (l l' : list A) : NoDup (l ++ l') -> forall x, In x l -> ~ In x l'.
Proof. induction l as [|y l IH]; cbn [app]; intros N x []; inversion N as [|? ? N1 N2]; subst; [intros I; apply N1; apply in_app_iff; auto|apply IH; auto]. Qed.

(* ---- tables with a fixed list of keys ---- *)

Definition asl {V} (f : list Z -> V) (K : list (list Z)) : list (list Z * V) := map (fun x => (x, f x)) K.
Definition upd {V} (f : list Z -> V) (mu : list Z) (v : V) (x : list Z) : V := if pdec x mu then v else f x.

Lemma upd_same {V} (f : list Z -> V) mu v : upd f mu v mu = v.
Proof. unfold upd. destruct (pdec mu mu); congruence. Qed.
Lemma upd_other {V} (f : list Z -> V) mu v x : x <> mu -> upd f mu v x = f x.
Proof. unfold upd. destruct (pdec x mu); congruence. Qed.
Lemma upd_id {V} (f : list Z -> V) mu x : upd f mu (f mu) x = f x.
Proof. unfold upd. destruct (pdec x mu); congruence. Qed.
Lemma asl_ext {V} (f g : list Z -> V) K : (forall x, In x K -> f x = g x) -> asl f K = asl g K.
Proof. intros H. apply map_ext_in. intros x Hx. rewrite H; auto. Qed.

Lemma as_get_asl {V} n (f : list Z -> V) K mu : Forall (is_part n) K -> In mu K -> as_get (asl f K) mu = Ret (f mu).
Proof.
  intros P I. pose proof P as P'. rewrite Forall_forall in P'. pose proof (P' mu I) as Pm. clear P'. induction K as [|x K IH]; [destruct I|]. cbn [asl map as_get]. apply Forall_inv in P as Px. apply Forall_inv_tail in P.
  destruct (ip_eq x mu) eqn:E; [apply (ip_eq_part n) in E; auto; congruence|]. apply IH; auto. destruct I as [->|I]; [|auto]. assert (ip_eq mu mu = true) by (apply (ip_eq_part n); auto). congruence.
Qed.
Lemma as_set_asl {V} n (f : list Z -> V) K mu v : Forall (is_part n) K -> NoDup K -> In mu K -> as_set (asl f K) mu v = Ret (asl (upd f mu v) K).
Proof.
  intros P N I. pose proof P as P'. rewrite Forall_forall in P'. pose proof (P' mu I) as Pm. clear P'. induction K as [|x K IH]; [destruct I|]. cbn [asl map as_set]. apply Forall_inv in P as Px. apply Forall_inv_tail in P. inversion N as [|? ? N1 N2]; subst.
  destruct (ip_eq x mu) eqn:E.
  - apply (ip_eq_part n) in E; auto. subst x. rewrite upd_same. f_equal. f_equal. apply map_ext_in. intros y Hy. rewrite upd_other; [auto|]. intros ->. auto.
  - assert (x <> mu) as Nx. { intros ->. assert (ip_eq mu mu = true) by (apply (ip_eq_part n); auto). congruence. } destruct I as [->|I]; [congruence|]. unfold asl in IH. rewrite IH by auto. cbn [bind]. rewrite upd_other by auto. auto.
Qed.

Lemma index_map n (f : list Z -> partb) K mu : Forall (is_part n) K -> (forall x, In x K -> io_lambda (pb_irr (f x)) = x) -> In mu K -> rd (map f K) (vb_index (map f K) mu) = Ret (f mu).
Proof.
  intros P Hf I. assert (exists a b, K = a ++ mu :: b /\ forall i, vb_index_from (map f K) mu i = i + zlen a) as (a & b & E & Ei).
  { pose proof P as P'. rewrite Forall_forall in P'. pose proof (P' mu I) as Pm. clear P'. induction K as [|x K IH]; [destruct I|]. apply Forall_inv in P as Px. apply Forall_inv_tail in P. cbn [map vb_index_from]. rewrite (Hf x) by (left; auto). destruct (ip_eq x mu) eqn:E.
    - apply (ip_eq_part n) in E; auto. subst x. exists [], K. split; [auto|]. intros i. cbn. lia.
    - destruct I as [->|I]; [assert (ip_eq mu mu = true) by (apply (ip_eq_part n); auto); congruence|]. destruct (IH P) as (a & b & -> & Hi); auto. { intros; apply Hf; right; auto. } exists (x :: a), b. split; [auto|]. intros i. rewrite Hi. rewrite zlen_cons. lia. }
  unfold vb_index. rewrite Ei, Z.add_0_l, E, map_app. cbn [map]. replace (zlen a) with (zlen (map f a)) by (apply zlen_map). apply rd_at.
Qed.

Lemma Forall2_fun {B} (Q : list Z -> B -> Prop) K Y (dflt : B) : NoDup K -> Forall2 Q K Y -> exists f, Y = map f K /\ forall x, In x K -> Q x (f x).
Proof.
  intros N F. induction F as [|x y K Y H F IH]; [exists (fun _ => dflt); split; [auto|intros x []]|]. inversion N as [|? ? N1 N2]; subst. destruct (IH N2) as (f & -> & Hf). exists (upd f x y). cbn [map]. rewrite upd_same. split.
  - f_equal. apply map_ext_in. intros z Hz. rewrite upd_other; [auto|]. intros ->. auto.
  - intros z [<-|Hz]; [rewrite upd_same; auto|]. rewrite upd_other; [auto|]. intros ->. auto.
Qed.

(* ---- the search for an eigenvalue ---- *)

Lemma ev_find_ok ev t d : zlen ev = d -> forall fuel i, 0 <= i -> i + Z.of_nat fuel = d -> exists r, ev_find fuel ev t i = Ret r /\ i <= r <= d /\
  (forall x, i <= x < r -> (1 / 1000 < Rabs (znth ev x 0%R - t))%R) /\ (r < d -> ~ (1 / 1000 < Rabs (znth ev r 0%R - t))%R).
Proof.
  intros Hd. induction fuel as [|fuel IH]; intros i Hi E; cbn [ev_find].
  - exists i. split; [auto|]. split; [lia|]. split; [intros; lia|lia].
  - rewrite (rd_ok ev i 0%R) by lia. cbn [bind]. destruct (Rlt_dec (1 / 1000) (Rabs (znth ev i 0%R - t))) as [L|L].
    + destruct (IH (i + 1) ltac:(lia) ltac:(lia)) as (r & E' & R1 & R2 & R3). exists r. split; [auto|]. split; [lia|]. split; [|auto]. intros x Hx. destruct (Z.eq_dec x i) as [->|]; [auto|]. apply R2. lia.
    + exists i. split; [auto|]. split; [lia|]. split; [intros; lia|auto].
Qed.

Lemma far_int a b : (1 / 1000 < Rabs (IZR a - IZR b))%R <-> a <> b.
Proof.
  rewrite <- minus_IZR. split.
  - intros H ->. rewrite Z.sub_diag, Rabs_R0 in H. lra.
  - intros H. rewrite <- abs_IZR. assert (IZR 1 <= IZR (Z.abs (a - b)))%R by (apply IZR_le; lia). lra.
Qed.

(* the first element of a filtered range that is not among the first j *)
Lemma filter_pick (f : Z -> bool) W j i0 : 0 <= i0 < W -> f i0 = true -> ~ In i0 (firstn j (filter f (zrange 0 W))) -> (forall x, 0 <= x < i0 -> f x = true -> In x (firstn j (filter f (zrange 0 W)))) ->
  (j < length (filter f (zrange 0 W)))%nat /\ nth j (filter f (zrange 0 W)) 0 = i0.
Proof.
  intros Hi Fi Ni Hx. set (A := filter f (zrange 0 i0)). assert (exists Y, filter f (zrange 0 W) = A ++ i0 :: Y) as (Y & E).
  { exists (filter f (zrange (i0 + 1) W)). rewrite (zrange_app 0 i0 W) by lia. rewrite (zrange_cons i0 W) by lia. rewrite filter_app. cbn [filter]. rewrite Fi. auto. }
  rewrite E in *. assert (j <= length A)%nat as J1. { destruct (Nat.le_gt_cases j (length A)) as [|G]; [auto|]. exfalso. apply Ni. rewrite firstn_app. apply in_app_iff. right. replace (j - length A)%nat with (S (j - length A - 1)) by lia. left. auto. }
  assert (incl A (firstn j (A ++ i0 :: Y))) as Ic. { intros x HA. unfold A in HA. apply filter_In in HA as (HA & Fx). apply in_zrange in HA. apply Hx; auto. }
  assert (NoDup A) as NA by (apply NoDup_filter, NoDup_zrange). pose proof (NoDup_incl_length NA Ic) as L. rewrite firstn_length in L. assert (j = length A) as -> by lia. split; [rewrite app_length; cbn; lia|]. rewrite app_nth2, Nat.sub_diag by lia. auto.
Qed.

Section Fold.
  Variables (F : ftable) (k : nat) (l1 l2 : list Z).
  Let n := Z.of_nat k + 2.
  Hypotheses (P1 : is_part n l1) (P2 : is_part n l2) (Hbig : n <= 1234567).
  Let Hn : 2 <= n. Proof. unfold n. lia. Qed.
  Let D := DD k l1 l2.
  Let WM := WW n l1 l2.
  Let KZ := kz n l1 l2.
  Let keys := TK l1 l2.
  Variables (subf : list Z -> partb) (Um : list Z -> mat) (Dl : list Z -> list R).
  Let U (mu : list Z) (c i : Z) : R := m_at (Um mu) c i.
  Let Dv (mu : list Z) (i : Z) : R := znth (Dl mu) i 0%R.
  Hypothesis Hsub : forall mu, In mu keys -> subpart F k l1 l2 mu (subf mu).
  Hypothesis Usize : forall mu, In mu keys -> m_n0 (Um mu) = WM mu /\ m_n1 (Um mu) = WM mu /\ zlen (Dl mu) = WM mu.
  Hypothesis Hsel : forall lam mu, occ k l1 l2 lam mu -> zlen (sel k l1 l2 mu (Dv mu) lam) = KZ lam.
  Hypothesis Hcont : forall mu i, In mu keys -> 0 <= i < WM mu -> exists lam, occ k l1 l2 lam mu /\ Dv mu i = IZR (ct lam (rof lam mu)).

  Let sel' (lam mu : list Z) : list Z := sel k l1 l2 mu (Dv mu) lam.
  Let raw' := raw k l1 l2 U Dv.
  Let fin' := fin F k l1 l2 U Dv.
  Let occ' := occ k l1 l2.

  Lemma keys_parts : Forall (is_part (n - 1)) keys.
  Proof. destruct (TTl_ok k l1 l2 P1 P2) as (_ & T & _). apply T. Qed.
  Lemma keys_nodup : NoDup keys.
  Proof. destruct (TTl_ok k l1 l2 P1 P2) as (_ & T & _). apply (type_nodup (n - 1)). exact T. Qed.
  Lemma occ_key lam mu : occ' lam mu -> In mu keys.
  Proof.
    intros O. pose proof (occ_part k l1 l2 lam mu O) as Pm. destruct O as (P & Hm & Hk). destruct (TTl_ok k l1 l2 P1 P2) as (_ & _ & R). apply R. split; [exact Pm|]. exists lam. split; [apply (cgt_keys n); auto; lia|exact Hm].
  Qed.

  Lemma ct_small lam mu : occ' lam mu -> ct lam (rof lam mu) < 1234567.
  Proof.
    intros (P & Hm & _). destruct (rof_ok lam mu Hm) as (A & _). unfold ct. apply in_corners in A as (A & _). assert (row lam (rof lam mu) <= n) by (apply (row_le n); [exact P|lia]). unfold n in *. lia.
  Qed.

  (* ---- a state ---- *)
  Definition rep (Rf : list Z -> mat) (ef : list Z -> list R) (tf : list Z -> Z) (s : learn_state) : Prop :=
    let '(fs, t, ev) := s in fs = asl Rf keys /\ ev = asl ef keys /\ type_of (n - 1) t /\ forall x, mult t x = tf x.

  Lemma sel_range lam mu i : In i (sel' lam mu) <-> 0 <= i < WM mu /\ Dv mu i = IZR (ct lam (rof lam mu)).
  Proof. apply in_sel. Qed.

  Lemma pick_ok lam mu Rf ef tf s : occ' lam mu -> rep Rf ef tf s -> m_n0 (Rf mu) = WM mu -> m_n1 (Rf mu) = WM mu -> 0 <= tf mu -> tf mu + KZ lam <= WM mu -> zlen (ef mu) = WM mu ->
    (forall i, 0 <= i < WM mu -> exists z, znth (ef mu) i 0%R = IZR z /\ (z = ct lam (rof lam mu) <-> Dv mu i = IZR (ct lam (rof lam mu)))) ->
    exists M ev s', le_pick mu (Um mu) (WM mu) (IZR (ct lam (rof lam mu))) (KZ lam) s = Ret s' /\ rep (upd Rf mu M) (upd ef mu ev) (upd tf mu (tf mu + KZ lam)) s' /\ m_n0 M = WM mu /\ m_n1 M = WM mu /\ zlen ev = WM mu /\
      (forall c j, 0 <= j < WM mu -> m_at M c j = if inrange (j - tf mu) (KZ lam) then raw' lam mu c (j - tf mu) else m_at (Rf mu) c j) /\
      (forall i, 0 <= i < WM mu -> znth ev i 0%R = if selb mu (Dv mu) lam i then IZR 1234567 else znth (ef mu) i 0%R).
  Proof.
    intros O Rs R0 R1 T0 T1 Ze Hz. pose proof (occ_key lam mu O) as Ik. pose proof O as (P & Hm & Hk). change (0 < KZ lam) in Hk. destruct (Usize mu Ik) as (U0 & U1 & _). pose proof (Hsel lam mu O) as HL. fold (sel' lam mu) in HL. set (sl := sel' lam mu) in *. set (tg := ct lam (rof lam mu)) in *. pose proof (ct_small lam mu O) as Hsm. fold tg in Hsm.
    pose proof (occ_part k l1 l2 lam mu O) as Pm. fold n in Pm.
    assert (forall i, In i sl <-> 0 <= i < WM mu /\ Dv mu i = IZR tg) as Hsl by (intros; apply sel_range).
    destruct (zfor_inv (fun j s' => exists M ev, rep (upd Rf mu M) (upd ef mu ev) (upd tf mu (tf mu + j)) s' /\ m_n0 M = WM mu /\ m_n1 M = WM mu /\ zlen ev = WM mu /\
      (forall c j', 0 <= j' < WM mu -> m_at M c j' = if inrange (j' - tf mu) j then raw' lam mu c (j' - tf mu) else m_at (Rf mu) c j') /\
      (forall i, 0 <= i < WM mu -> znth ev i 0%R = if in_dec Z.eq_dec i (firstn (Z.to_nat j) sl) then IZR 1234567 else znth (ef mu) i 0%R)) 0 (KZ lam)
      (fun (_ : Z) st =>
        let '(R, taken, evals) := st in
        ev <- as_get evals mu ;;
        i <- ev_find (Z.to_nat (WM mu)) ev (IZR tg) 0 ;;
        if i =? WM mu then Abort else
        M <- as_get R mu ;;
        c <- ty_call taken mu ;; let '(t, taken) := c in
        M <- mcol_set M t (Um mu) i ;;
        R <- as_set R mu M ;;
        ev <- wr ev i (IZR 1234567) ;;
        evals <- as_set evals mu ev ;;
        taken <- ty_add taken mu 1 ;;
        Ret (R, taken, evals)) s) as (s' & Es & M & ev & Rs' & M0 & M1 & Zv & VM & Vv); [lia| | |].
    - exists (Rf mu), (ef mu). split; [|split; [auto|split; [auto|split; [auto|split]]]].
      + destruct s as ((fs & t) & evs). destruct Rs as (-> & -> & Tt & Mt). split; [apply asl_ext; intros; rewrite upd_id; auto|]. split; [apply asl_ext; intros; rewrite upd_id; auto|]. split; [auto|]. intros x. rewrite Mt. unfold upd. destruct (pdec x mu) as [->|]; lia.
      + intros c j' _. replace (inrange (j' - tf mu) 0) with false; [auto|]. unfold inrange. lia.
      + intros i Hi. change (Z.to_nat 0) with 0%nat. cbn [firstn]. destruct (in_dec Z.eq_dec i []) as [[]|]; auto.
    - intros j st Hj (M & ev & Rs' & M0 & M1 & Zv & VM & Vv). destruct st as ((fs & t) & evs). destruct Rs' as (-> & -> & Tt & Mt).
      rewrite (as_get_asl (n - 1)) by (auto using keys_parts). rewrite upd_same. cbn [bind].
      destruct (ev_find_ok ev (IZR tg) (WM mu) Zv (Z.to_nat (WM mu)) 0 ltac:(lia) ltac:(lia)) as (i & Ei & Hi & Hlt & Hat). rewrite Ei. cbn [bind].
      assert (forall x, 0 <= x < WM mu -> (1 / 1000 < Rabs (znth ev x 0%R - IZR tg))%R <-> ~ (In x sl /\ ~ In x (firstn (Z.to_nat j) sl))) as Far.
      { intros x Hx. rewrite Vv by auto. destruct (in_dec Z.eq_dec x (firstn (Z.to_nat j) sl)) as [I|I]; [rewrite far_int; split; [tauto|lia]|]. destruct (Hz x Hx) as (z & -> & Ez). rewrite far_int. rewrite Hsl. rewrite Ez. tauto. }
      assert (Z.to_nat j < length sl)%nat as Lj by (unfold zlen in HL; lia).
      assert (NoDup sl) as Ns by apply NoDup_sel.
      assert (In (nth (Z.to_nat j) sl 0) sl /\ ~ In (nth (Z.to_nat j) sl 0) (firstn (Z.to_nat j) sl)) as Hnx.
      { split; [apply nth_In; auto|]. intros I. rewrite <- (firstn_skipn (Z.to_nat j) sl) in Ns. apply (NoDup_app_disj _ _ Ns _ I). assert (skipn (Z.to_nat j) sl = nth (Z.to_nat j) sl 0 :: skipn (S (Z.to_nat j)) sl) as -> by (apply skipn_nth; auto). left; auto. }
      assert (i < WM mu) as Hi'. { destruct (Z.lt_ge_cases i (WM mu)) as [|G]; [auto|]. exfalso. pose proof (proj1 (Hsl _) (proj1 Hnx)) as (Rg & _). apply (proj1 (Far _ Rg)); [|auto]. apply Hlt. lia. }
      specialize (Hat Hi'). assert (In i sl /\ ~ In i (firstn (Z.to_nat j) sl)) as (Is & In1). { destruct (in_dec Z.eq_dec i sl) as [A|A]; [destruct (in_dec Z.eq_dec i (firstn (Z.to_nat j) sl)) as [B|B]; [|auto]|]; exfalso; apply Hat; apply Far; try tauto; lia. }
      assert (i = si k l1 l2 Dv lam mu j) as Esi.
      { unfold si. destruct (filter_pick (selb mu (Dv mu) lam) (WM mu) (Z.to_nat j) i) as (_ & En); auto; [lia|unfold sl, sel', sel in Is; apply filter_In in Is; apply Is|].
        intros x Hx Fx. assert (0 <= x < WM mu) as Hx' by lia. destruct (in_dec Z.eq_dec x (firstn (Z.to_nat j) sl)) as [|Nx]; [auto|]. exfalso. apply (proj1 (Far x Hx')); [apply Hlt; lia|]. split; [|auto]. unfold sl, sel', sel. apply filter_In. split; [apply in_zrange; auto|auto]. }
      destruct (Z.eqb_spec i (WM mu)); [lia|]. rewrite (as_get_asl (n - 1)) by (auto using keys_parts). rewrite upd_same. cbn [bind].
      destruct (call_ok (n - 1) t mu Tt Pm) as (t1 & Ec & Tt1 & _ & Mt1 & _). rewrite Ec. cbn [bind]. assert (mult t mu = tf mu + j) as Etm by (rewrite Mt, upd_same; auto). rewrite Etm.
      unfold mcol_set. rewrite M0, M1, U0, U1, Z.eqb_refl. rewrite !inrange_true by lia. cbn [andb bind]. rewrite (as_set_asl (n - 1)) by (auto using keys_parts, keys_nodup). cbn [bind].
      rewrite wr_ok by lia. cbn [bind]. rewrite (as_set_asl (n - 1)) by (auto using keys_parts, keys_nodup). cbn [bind]. destruct (add_ok (n - 1) t1 mu 1 Tt1 Pm) as (t2 & Ea & Tt2 & _ & Mt2). rewrite Ea. cbn [bind].
      eexists. split; [reflexivity|]. eexists _, _. split; [split; [apply asl_ext; intros x _; unfold upd; destruct (pdec x mu); reflexivity|split; [apply asl_ext; intros x _; unfold upd; destruct (pdec x mu); reflexivity|split; [auto|]]]|].
      + intros x. rewrite Mt2, Mt1, Mt. unfold upd. destruct (pdec mu x), (pdec x mu); try congruence; lia.
      + cbn [m_n0 m_n1 m_at]. split; [auto|]. split; [auto|]. split; [rewrite zlen_zupd by lia; auto|]. split.
        * intros c j' Hj'. destruct (Z.eqb_spec j' (tf mu + j)) as [->|Nj].
          -- replace (tf mu + j - tf mu) with j by lia. rewrite inrange_true by lia. unfold raw', raw. rewrite <- Esi. reflexivity.
          -- rewrite VM by auto. replace (inrange (j' - tf mu) (j + 1)) with (inrange (j' - tf mu) j); [auto|]. unfold inrange. lia.
        * intros x Hx. rewrite znth_zupd by lia. assert (firstn (Z.to_nat (j + 1)) sl = firstn (Z.to_nat j) sl ++ [i]) as Ef.
          { replace (Z.to_nat (j + 1)) with (S (Z.to_nat j)) by lia. rewrite (firstn_S_nth _ _ 0) by auto. f_equal. f_equal. symmetry. exact Esi. }
          rewrite Ef. destruct (Z.eqb_spec x i) as [->|Nx].
          -- destruct (in_dec Z.eq_dec i (firstn (Z.to_nat j) sl ++ [i])) as [|N1]; [auto|]. exfalso. apply N1. apply in_app_iff. right. left. auto.
          -- rewrite Vv by auto. destruct (in_dec Z.eq_dec x (firstn (Z.to_nat j) sl)) as [A|A], (in_dec Z.eq_dec x (firstn (Z.to_nat j) sl ++ [i])) as [B|B]; auto; exfalso; [apply B; apply in_app_iff; auto|apply in_app_iff in B as [B|[B|[]]]; congruence].
    - exists M, ev, s'. split; [exact Es|]. split; [auto|]. split; [auto|]. split; [auto|]. split; [auto|]. split; [auto|]. intros i Hi. rewrite Vv by auto. rewrite firstn_all2 by (unfold zlen in HL; lia).
      unfold selb. fold tg. destruct (in_dec Z.eq_dec i sl) as [I|I], (Req_EM_T (Dv mu i) (IZR tg)) as [Q|Q]; auto; exfalso; [apply Q; apply Hsl; auto|apply I; apply Hsl; auto].
  Qed.

  (* ---- after the pairs in dn ---- *)
  Definition taken_of (dn : list (list Z * list Z)) (mu : list Z) : Z := zsum_over dn (fun p => if pdec (snd p) mu then KZ (fst p) else 0).
  Definition mark (dn : list (list Z * list Z)) (mu : list Z) (i : Z) : bool := existsb (fun p => (if pdec (snd p) mu then true else false) && selb mu (Dv mu) (fst p) i) dn.
  Definition inv (dn : list (list Z * list Z)) (s : learn_state) : Prop := exists Rf ef, rep Rf ef (taken_of dn) s /\ forall mu, In mu keys ->
    m_n0 (Rf mu) = WM mu /\ m_n1 (Rf mu) = WM mu /\ zlen (ef mu) = WM mu /\
    (forall lam c a, In (lam, mu) dn -> 0 <= c < WM mu -> 0 <= a < KZ lam -> m_at (Rf mu) c (coff n l1 l2 lam mu + a) = fin' lam mu c a) /\
    (forall i, 0 <= i < WM mu -> znth (ef mu) i 0%R = if mark dn mu i then IZR 1234567 else Dv mu i).

  Definition pull_ok (lam : list Z) (Q : mat) : Prop := m_n0 Q = D /\ m_n1 Q = KZ lam /\ forall b a, 0 <= b < D -> 0 <= a < KZ lam ->
    m_at Q b a = rsum D (fun b' => (KK k l1 l2 (tau1 k) b b' * rsum (WM (mu0 lam)) (fun c => Wv F k l1 l2 (mu0 lam) 0%Z c b' * raw' lam (mu0 lam) c a))%R).

  Let sub := map subf keys.
  Let evec := asl Um keys.
  Let r1 := mkirr n l1.
  Let r2 := mkirr n l2.

  Lemma WM_nonneg mu : is_part (n - 1) mu -> 0 <= WM mu.
  Proof. intros Pm. apply zsum_nonneg. intros p Hp. apply pk_nonneg; auto. Qed.
  Lemma DD_pos : 0 < D.
  Proof. unfold D, DD. pose proof (d1_pos k l1 P1). pose proof (d2_pos k l2 P2). nia. Qed.

  Lemma mat_mul_ok A B : m_n1 A = m_n0 B -> exists C, mat_mul A B = Ret C /\ m_n0 C = m_n0 A /\ m_n1 C = m_n1 B /\ forall i j, m_at C i j = rsum (m_n1 A) (fun x => (m_at A i x * m_at B x j)%R).
  Proof. intros E. unfold mat_mul. rewrite E, Z.eqb_refl, <- E. eexists. split; [reflexivity|]. cbn [m_n0 m_n1 m_at]. split; [auto|]. split; [auto|]. intros. apply acc_sum_rsum. Qed.

  Lemma mu_step dn lam mu v s pull : occ' lam mu -> inv dn s -> taken_of dn mu = coff n l1 l2 lam mu -> ~ In (lam, mu) dn -> (forall lam' mu', In (lam', mu') dn -> occ' lam' mu') ->
    zlen v = io_d (mkirr n lam) -> znth v (boff n lam (rof lam mu)) 0%R = IZR (ct lam (rof lam mu)) ->
    (pull = None /\ mu = mu0 lam \/ exists Q, pull = Some Q /\ mu <> mu0 lam /\ pull_ok lam Q) ->
    exists s' Q, le_mu r1 r2 (mkirr n lam) n sub evec v (KZ lam) mu (s, boff n lam (rof lam mu), pull) = Ret (s', boff n lam (rof lam mu) + io_d (mkirr (n - 1) mu), Some Q) /\ inv (dn ++ [(lam, mu)]) s' /\ pull_ok lam Q.
  Proof.
    intros O (Rf & ef & Rs & Hinv) Tk Nd Od Zv Vv Hp. pose proof (occ_key lam mu O) as Ik. pose proof (occ_part k l1 l2 lam mu O) as Pm. fold n in Pm. pose proof O as (P & Hm & Hk). change (0 < KZ lam) in Hk.
    destruct (Hinv mu Ik) as (R0 & R1 & Ze & Hfin & Hev). set (t := boff n lam (rof lam mu)) in *. pose proof (dpos (n - 1) mu ltac:(lia) Pm) as Mp. assert (0 <= t < io_d (mkirr n lam)) as Ht. { destruct (rof_ok lam mu Hm) as (A & B). pose proof (boff_bound n lam (rof lam mu) 0 P Hn A) as H. rewrite B in H. unfold t. lia. }
    destruct (coff_range k l1 l2 P1 P2 mu lam 0 Pm P Hm (conj (Z.le_refl 0) Hk)) as (C1 & _ & C2). fold n in C1, C2. change (coff n l1 l2 lam mu + KZ lam <= WM mu) in C2. set (c0 := coff n l1 l2 lam mu) in *.
    destruct (Hsub mu Ik) as (S1 & S2 & S3 & S4 & S5). fold n D WM in S1, S2, S3, S4, S5. pose proof DD_pos as Dp.
    unfold le_mu. rewrite (rd_ok v t 0%R) by lia. rewrite Vv. cbn [bind].
    unfold sub. rewrite (index_map (n - 1) subf keys mu keys_parts) by (auto; intros x Hx; destruct (Hsub x Hx) as (-> & _); reflexivity). cbn [bind]. unfold evec. rewrite (as_get_asl (n - 1)) by (auto using keys_parts). cbn [bind].
    unfold pb_m. rewrite S4.
    assert (forall lam', In (lam', mu) dn -> lam' <> lam) as Nl by (intros lam' I ->; auto).
    destruct (pick_ok lam mu Rf ef (taken_of dn) s O Rs R0 R1 ltac:(lia) ltac:(lia) Ze) as (M & ev & s1 & Ep & Rs1 & M0 & M1 & Zev & VM & Vev).
    { intros i Hi. rewrite Hev by auto. destruct (Hcont mu i Ik Hi) as (lam2 & O2 & E2). destruct (mark dn mu i) eqn:Em.
      - exists 1234567. split; [auto|]. pose proof (ct_small lam mu O). split; [lia|]. intros E. exfalso. unfold mark in Em. apply existsb_exists in Em as ((lam' & mu') & I & Em). cbn [fst snd] in Em. destruct (pdec mu' mu) as [->|]; [|discriminate]. cbn [andb] in Em. unfold selb in Em. destruct (Req_EM_T (Dv mu i) (IZR (ct lam' (rof lam' mu)))) as [E'|]; [|discriminate].
        apply (Nl lam' I). rewrite E in E'. apply eq_IZR in E'. destruct (Od lam' mu I) as (P' & Hm' & _). destruct (rof_ok lam mu Hm) as (A & B). destruct (rof_ok lam' mu Hm') as (A' & B'). symmetry. apply (ct_inj n lam lam' (rof lam mu) (rof lam' mu)); auto. congruence.
      - exists (ct lam2 (rof lam2 mu)). split; [auto|]. rewrite E2. split; [intros ->; auto|apply eq_IZR]. }
    rewrite Ep. cbn [bind]. destruct s1 as ((fs & tk) & evs). destruct Rs1 as (-> & -> & Tt & Mt).
    unfold tslice1. rewrite S3, inrange_true by lia. cbn [bind]. rewrite S2, S4. rewrite (as_get_asl (n - 1)) by (auto using keys_parts). rewrite upd_same. cbn [bind].
    destruct (call_ok (n - 1) tk mu Tt Pm) as (tk1 & Ec & Tt1 & _ & Mt1 & _). rewrite Ec. cbn [bind]. assert (mult tk mu = c0 + KZ lam) as -> by (rewrite Mt, upd_same, Tk; auto). replace (c0 + KZ lam - KZ lam) with c0 by lia.
    assert (block_fits M 0 c0 (m_n0 M) (KZ lam) = true) as Bf. { unfold block_fits. rewrite M1. pose proof (WM_nonneg mu Pm). lia. }
    unfold mcols. rewrite Bf. cbn [bind]. rewrite M0.
    set (V := mkMat D (WM mu) (fun a b => t_at (pb_t (subf mu)) a 0 b)). set (Rb := mkMat (WM mu) (KZ lam) (fun a b => m_at M a (c0 + b))).
    assert (forall c a, 0 <= a < KZ lam -> m_at Rb c a = raw' lam mu c a) as VRb. { intros c a Ha. cbn [Rb m_at]. rewrite VM by lia. rewrite Tk. replace (c0 + a - c0) with a by lia. rewrite inrange_true by lia. auto. }
    assert (forall b c, 0 <= b < D -> 0 <= c < WM mu -> m_at V b c = Wv F k l1 l2 mu 0 c b) as VV. { intros b c Hb Hc. cbn [V m_at]. apply S5; auto; lia. }
    (* the new state *)
    assert (forall M' tk', type_of (n - 1) tk' -> (forall x, mult tk' x = upd (taken_of dn) mu (taken_of dn mu + KZ lam) x) -> m_n0 M' = WM mu -> m_n1 M' = WM mu ->
      (forall c j, 0 <= c < WM mu -> 0 <= j < WM mu -> m_at M' c j = if inrange (j - c0) (KZ lam) then fin' lam mu c (j - c0) else m_at (Rf mu) c j) ->
      inv (dn ++ [(lam, mu)]) (asl (upd Rf mu M') keys, tk', asl (upd ef mu ev) keys)) as New.
    { intros M' tk' Tt' Mt' M0' M1' VM'. exists (upd Rf mu M'), (upd ef mu ev). split.
      - split; [auto|]. split; [auto|]. split; [auto|]. intros x. rewrite Mt'. unfold upd, taken_of. rewrite zsum_over_app, zsum_over_cons, zsum_over_nil. cbn [fst snd]. destruct (pdec x mu) as [E|E]; [subst x; destruct (pdec mu mu); [lia|congruence]|]. destruct (pdec mu x); [congruence|lia].
      - intros x Hx. destruct (pdec x mu) as [->|Nx].
        + rewrite !upd_same. split; [auto|]. split; [auto|]. split; [auto|]. split.
          * intros lam' c a I Hc Ha. apply in_app_iff in I as [I|[I|[]]].
            -- destruct (Od lam' mu I) as (P' & Hm' & Hk'). destruct (coff_range k l1 l2 P1 P2 mu lam' a Pm P' Hm' Ha) as (D1 & D2 & _). fold n WM in D1, D2. rewrite VM' by lia. destruct (inrange (coff n l1 l2 lam' mu + a - c0) (KZ lam)) eqn:Ei; [|apply Hfin; auto].
               exfalso. apply inrange_iff in Ei. apply (Nl lam' I). apply (coff_inj k l1 l2 P1 P2 mu lam' a lam (coff n l1 l2 lam' mu + a - c0)); auto. unfold c0. fold n. lia.
            -- injection I as <-. fold c0. rewrite VM' by lia. replace (c0 + a - c0) with a by lia. rewrite inrange_true by lia. auto.
          * intros i Hi. rewrite Vev, Hev by auto. unfold mark. rewrite existsb_app. cbn [existsb fst snd]. destruct (pdec mu mu); [|congruence]. cbn [andb]. rewrite orb_false_r. destruct (selb mu (Dv mu) lam i); [rewrite orb_true_r; auto|rewrite orb_false_r; auto].
        + rewrite !upd_other by auto. destruct (Hinv x Hx) as (X0 & X1 & X2 & X3 & X4). split; [auto|]. split; [auto|]. split; [auto|]. split.
          * intros lam' c a I. apply in_app_iff in I as [I|[I|[]]]; [apply X3; auto|congruence].
          * intros i Hi. rewrite X4 by auto. unfold mark. rewrite existsb_app. cbn [existsb fst snd]. destruct (pdec mu x); [congruence|]. cbn [andb orb]. rewrite orb_false_r. auto. }
    unfold pb_d. rewrite S3. destruct Hp as [(-> & E0)|(Q & -> & Ne & Q0 & Q1 & VQ)].
    - (* the first mu *)
      destruct (mat_mul_ok V Rb eq_refl) as (Q & EQ & Q0 & Q1 & VQ). cbn [V Rb m_n0 m_n1] in Q0, Q1, VQ. rewrite EQ. cbn [bind].
      destruct (mkirr_ok n l1 P1 ltac:(lia)) as (_ & G1). destruct (mkirr_ok n l2 P2 ltac:(lia)) as (_ & G2).
      destruct (pr_apply_ok n l1 l2 r1 r2 G1 G2 (n - 1) (rows_get Q)) as (T & ET & (T0 & T1 & T2) & VT); [lia|cbn; rewrite Q0; reflexivity|cbn; lia|cbn; lia|]. rewrite ET. cbn [bind]. cbn [rows_get t_n0 t_n1 t_n2] in T0, T1, T2.
      eexists _, _. split; [reflexivity|]. split.
      + apply New; auto. { intros x. rewrite Mt1, Mt. auto. } intros c j Hc Hj. rewrite VM by auto. rewrite Tk. destruct (inrange (j - c0) (KZ lam)); [|auto]. unfold fin', fin. replace (aligned k lam mu) with false; [auto|]. unfold aligned. destruct (pdec mu (mu0 lam)); congruence.
      + split; [cbn; congruence|]. split; [cbn; congruence|]. intros b a Hb Ha. cbn [rows_put m_at]. rewrite VT by (cbn; first [lia | rewrite Q1; lia | exact Hb]). apply rsum_ext. intros b' Hb'. replace (n - 1 + 1) with n by lia. f_equal. cbn [rows_get t_at]. rewrite VQ. rewrite <- E0. apply rsum_ext. intros c Hc. rewrite VRb, VV by auto. auto.
    - (* the others *)
      destruct (mat_mul_ok (mtransp V) Q) as (X & EX & X0 & X1 & VX); [cbn; auto|]. cbn [mtransp V m_n0 m_n1] in X0, X1, VX. rewrite EX. cbn [bind].
      destruct (mat_mul_ok (mtransp Rb) X) as (B & EB & B0 & B1 & VB); [cbn; auto|]. cbn [mtransp Rb m_n0 m_n1] in B0, B1, VB. rewrite EB. cbn [bind].
      assert (forall m a, 0 <= m < KZ lam -> 0 <= a < KZ lam -> m_at B m a = Bm F k l1 l2 U Dv lam mu (mu0 lam) (tau1 k) m a) as VBm.
      { intros m a Hm' Ha. rewrite VB. unfold Bm. fold n D WM raw'. rewrite (rsum_ext _ _ (fun x => rsum D (fun b => (Wv F k l1 l2 mu 0%Z x b * raw' lam mu x m * m_at Q b a)%R))).
        - rewrite rsum_swap. apply rsum_ext. intros b Hb. rewrite <- VQ by auto. rewrite <- rsum_scal_r. apply rsum_ext. intros; ring.
        - intros x Hx. rewrite VX, <- rsum_scal. apply rsum_ext. intros b Hb. change (m_at (mtransp Rb) m x) with (m_at Rb x m). change (m_at (mtransp V) x b) with (m_at V b x). rewrite VRb, VV by auto. ring. }
      set (A0 := mkTen 1 (io_d (mkirr n lam)) (KZ lam) (fun _ _ _ => 0%R)).
      pose proof (dpos n lam ltac:(lia) P) as Lp.
      destruct (zfor_inv (fun i A => tdims A0 A /\ forall x y z, t_at A x y z = if (x =? 0) && (y =? 0) && inrange z i then 1%R else 0%R) 0 (KZ lam) (fun i A => tset A 0 0 i 1%R) A0) as (A & EA & (A0' & A1' & A2') & VA); [lia|split; [repeat split|]| |].
      { intros x y z. replace (inrange z 0) with false by (unfold inrange; lia). rewrite andb_false_r. reflexivity. }
      { intros i A Hi ((B0' & B1' & B2') & V0). cbn [A0 t_n0 t_n1 t_n2] in B0', B1', B2'. destruct (tset_ok A 0 0 i 1%R) as (A' & EA & (C0' & C1' & C2') & VA'); [lia|lia|lia|]. exists A'. split; [auto|]. split; [split; [|split]; cbn [A0 t_n0 t_n1 t_n2]; congruence|].
        intros x y z. rewrite VA', V0. unfold inrange. destruct (Z.eqb_spec x 0), (Z.eqb_spec y 0), (Z.eqb_spec z i); cbn [andb]; auto; subst; repeat match goal with |- context [?a <=? ?b] => destruct (Z.leb_spec a b) | |- context [?a <? ?b] => destruct (Z.ltb_spec a b) end; cbn [andb]; auto; lia. }
      rewrite EA. cbn [bind]. cbn [A0 t_n0 t_n1 t_n2] in A0', A1', A2'. destruct (mkirr_ok n lam P ltac:(lia)) as (_ & G).
      destruct (mid_transp_ok n lam (mkirr n lam) G (n - 1) n A) as (A' & EA' & (C0' & C1' & C2') & VA'); [lia|lia|lia|lia|lia|]. rewrite EA'. cbn [bind]. rewrite tget_ok by lia. cbn [bind].
      assert (t_at A' 0 t 0 = Aval k lam mu) as EAv. { rewrite VA' by lia. unfold Aval. fold n t. rewrite (rsum_ext _ _ (fun x => (rho n (mkirr n lam) (ptransp n (n - 1) n) t x * delta x 0)%R)). { rewrite (rsum_delta _ (fun x => rho n (mkirr n lam) (ptransp n (n - 1) n) t x)) by lia. reflexivity. }
        intros x Hx. f_equal. rewrite VA. rewrite inrange_true by lia. unfold delta. cbn [Z.eqb andb]. rewrite andb_true_r. destruct (Z.eqb_spec x 0), (Z.eq_dec x 0); auto; lia. }
      rewrite EAv. destruct (Rlt_dec (1 / 10000) (Rabs (Aval k lam mu))) as [L|L].
      + destruct (mat_mul_ok Rb (mscale (mtransp B) (1 / Aval k lam mu))) as (C & EC & Cc0 & Cc1 & VC); [cbn; congruence|]. cbn [mscale mtransp Rb m_n0 m_n1] in Cc0, Cc1, VC. rewrite EC. cbn [bind].
        unfold mcols_set. rewrite Bf. rewrite Cc0, Cc1, M0, B0, !Z.eqb_refl. cbn [andb bind]. rewrite (as_set_asl (n - 1)) by (auto using keys_parts, keys_nodup). cbn [bind].
        eexists _, _. split; [reflexivity|]. split; [|split; [auto|split; auto]].
        replace (asl (upd (upd Rf mu M) mu (mkMat (WM mu) (m_n1 M) (fun a b => if inrange (b - c0) (KZ lam) then m_at C a (b - c0) else m_at M a b))) keys) with (asl (upd Rf mu (mkMat (WM mu) (m_n1 M) (fun a b => if inrange (b - c0) (KZ lam) then m_at C a (b - c0) else m_at M a b))) keys) by (apply asl_ext; intros x _; unfold upd; destruct (pdec x mu); auto).
        apply New; auto. { intros x. rewrite Mt1, Mt. auto. } intros c j Hc Hj. cbn [m_at]. rewrite VM by auto. rewrite Tk. destruct (inrange (j - c0) (KZ lam)) eqn:Ej; [|auto]. apply inrange_iff in Ej. rewrite VC. unfold fin', fin. replace (aligned k lam mu) with true.
        2:{ unfold aligned. destruct (pdec mu (mu0 lam)); [congruence|]. destruct (Rlt_dec (1 / 10000) (Rabs (Aval k lam mu))); [auto|contradiction]. }
        apply rsum_ext. intros m Hm'. rewrite VRb by auto. cbn [mscale mtransp m_at]. rewrite VBm by auto. reflexivity.
      + cbn [bind]. eexists _, _. split; [reflexivity|]. split; [|split; [auto|split; auto]].
        apply New; auto. { intros x. rewrite Mt1, Mt. auto. } intros c j Hc Hj. rewrite VM by auto. rewrite Tk. destruct (inrange (j - c0) (KZ lam)); [|auto]. unfold fin', fin. replace (aligned k lam mu) with false; [auto|]. unfold aligned. destruct (pdec mu (mu0 lam)); [auto|]. destruct (Rlt_dec (1 / 10000) (Rabs (Aval k lam mu))); [contradiction|auto].
  Qed.

  (* ---- one lam, and all of them ---- *)
  Definition pairs (lams : list (list Z)) : list (list Z * list Z) := flat_map (fun lam => map (pair lam) (belows lam)) lams.
  Let ks := map fst (cgt l1 l2).

  Lemma in_pairs lams lam mu : In (lam, mu) (pairs lams) <-> In lam lams /\ In mu (belows lam).
  Proof.
    unfold pairs. rewrite in_flat_map. split.
    - intros (x & Hx & H). apply in_map_iff in H as (y & E & Hy). injection E as -> ->. auto.
    - intros (A & B). exists lam. split; [auto|]. apply in_map. auto.
  Qed.
  Lemma ks_nodup : NoDup ks.
  Proof. destruct (cgt_ok n l1 l2 ltac:(lia) P1 P2) as ((T & _) & _). apply (type_nodup n _ T). Qed.

  Lemma taken_below lam mu : is_part n lam -> taken_of (map (pair lam) (belows lam)) mu = lk n l1 l2 mu lam.
  Proof.
    intros P. unfold taken_of, lk. rewrite zsum_over_map. cbn [fst snd]. destruct (belows_spec n lam P ltac:(lia)) as (N & _). fold KZ. destruct (isin mu (belows lam)) eqn:E.
    - apply isin_true in E. apply in_split in E as (a & b & E). rewrite E in *. rewrite zsum_over_app, zsum_over_cons. destruct (pdec mu mu); [|congruence]. apply NoDup_remove_2 in N. rewrite in_app_iff in N.
      rewrite !zsum_over_0; [unfold KZ; lia| |]; intros x Hx; destruct (pdec x mu); auto; subst; tauto.
    - apply zsum_over_0. intros x Hx. destruct (pdec x mu); [|auto]. subst. apply isin_true in Hx. congruence.
  Qed.
  Lemma taken_pairs lams mu : (forall lam, In lam lams -> is_part n lam) -> taken_of (pairs lams) mu = zsum_over lams (lk n l1 l2 mu).
  Proof.
    induction lams as [|lam lams IH]; intros H; [reflexivity|]. unfold pairs. cbn [flat_map]. unfold taken_of. rewrite zsum_over_app, zsum_over_cons. fold (taken_of (map (pair lam) (belows lam)) mu). rewrite taken_below by (apply H; left; auto). f_equal. apply IH. intros; apply H; right; auto.
  Qed.

  Lemma jm_vals lam : is_part n lam -> exists v, irr_jm (mkirr n lam) n = Ret v /\ zlen v = io_d (mkirr n lam) /\ forall i, 0 <= i < io_d (mkirr n lam) -> znth v i 0%R = IZR (cont (tb (mkirr n lam) i) n).
  Proof.
    intros P. destruct (mkirr_ok n lam P ltac:(lia)) as (_ & G). destruct (jm_matrix_ok n lam (mkirr n lam) G n ltac:(lia) ltac:(lia)) as (M & EM & M0 & M1 & VM). unfold irr_jm. rewrite EM. cbn [bind]. eexists. split; [reflexivity|]. unfold mdiag. rewrite M0. pose proof (dpos n lam ltac:(lia) P).
    split; [rewrite zlen_map, zlen_zrange; lia|]. intros i Hi. rewrite (znth_map _ _ _ 0) by (rewrite zlen_zrange; lia). rewrite znth_zrange by lia. rewrite Z.add_0_l, VM by auto. rewrite (jm_entry n lam _ G) by (auto; lia). rewrite delta_refl. ring.
  Qed.

  Lemma lam_step pre lam post s : ks = pre ++ lam :: post -> inv (pairs pre) s -> exists s',
    (o <- irr_new lam ;; JMl <- irr_jm o (io_n o) ;; mus <- ip_foreach_sub lam ;;
     r <- foldM (le_mu r1 r2 o n sub evec JMl (KZ lam)) mus (s, 0, None) ;; let '(s, _, _) := r in Ret s) = Ret s' /\ inv (pairs (pre ++ [lam])) s'.
  Proof.
    intros Ek I. assert (forall x, In x ks -> is_part n x /\ 0 < KZ x) as Hks by (intros x Hx; apply (cgt_keys n l1 l2 x); auto; lia).
    assert (In lam ks) as Hl by (rewrite Ek; apply in_app_iff; right; left; auto). destruct (Hks lam Hl) as (P & Hk). destruct (mkirr_ok n lam P ltac:(lia)) as (-> & G). cbn [bind mkirr io_n]. fold (mkirr n lam).
    destruct (jm_vals lam P) as (v & Ev & Zv & Vv). rewrite Ev. cbn [bind]. rewrite (ip_foreach_sub_ok n lam P) by lia. cbn [bind]. rewrite foldM_mapp.
    pose proof ks_nodup as Nk. assert (~ In lam pre) as Nl. { rewrite Ek in Nk. apply NoDup_remove_2 in Nk. rewrite in_app_iff in Nk. tauto. }
    assert (forall lam' mu', In (lam', mu') (pairs pre) -> occ' lam' mu') as Opre. { intros lam' mu' H. apply in_pairs in H as (A & B). destruct (Hks lam') as (A1 & A2); [rewrite Ek; apply in_app_iff; auto|]. split; [auto|]. split; auto. }
    destruct (foldM_prefix (fun dcs st => exists s' pull, st = (s', zsum_over dcs (hrow n lam), pull) /\ inv (pairs pre ++ map (fun r => (lam, prem lam r)) dcs) s' /\ (pull = None /\ dcs = [] \/ exists Q, pull = Some Q /\ dcs <> [] /\ pull_ok lam Q))
      (fun i => le_mu r1 r2 (mkirr n lam) n sub evec v (KZ lam) (prem lam i)) (corners lam) (s, 0, None)) as (st & Est & s' & pull & -> & I' & _).
    - exists s, None. split; [auto|]. split; [cbn [map]; rewrite app_nil_r; auto|auto].
    - intros dcs r dpost st Ec (s1 & pull & -> & I1 & Hp). set (mu := prem lam r). assert (In r (corners lam)) as Hr by (rewrite Ec; apply in_app_iff; right; left; auto). assert (In mu (belows lam)) as Hm by (apply in_map; auto). assert (occ' lam mu) as O by (split; [auto|split; auto]).
      pose proof (rof_prem n lam r ltac:(lia) P Hr) as Er. fold mu in Er. assert (boff n lam (rof lam mu) = zsum_over dcs (hrow n lam)) as Eb by (rewrite Er; apply (boff_split n lam dcs r dpost Ec)).
      destruct (belows_spec n lam P ltac:(lia)) as (Nb & _). assert (~ In mu (map (prem lam) dcs)) as Nm. { unfold belows in Nb. rewrite Ec, map_app in Nb. cbn [map] in Nb. fold mu in Nb. apply NoDup_remove_2 in Nb. rewrite in_app_iff in Nb. tauto. }
      destruct (mu_step (pairs pre ++ map (fun r => (lam, prem lam r)) dcs) lam mu v s1 pull O I1) as (s2 & Q & E2 & I2 & HQ).
      + unfold taken_of. rewrite zsum_over_app. fold (taken_of (pairs pre) mu). rewrite taken_pairs by (intros x Hx; apply Hks; rewrite Ek; apply in_app_iff; auto). rewrite zsum_over_map. cbn [fst snd].
        rewrite (zsum_over_0 dcs (fun x => if pdec (prem lam x) mu then KZ lam else 0)).
        * unfold coff. fold ks. rewrite Ek, before_split by auto. lia.
        * intros x Hx. destruct (pdec (prem lam x) mu) as [E|]; [|auto]. exfalso. apply Nm. rewrite <- E. apply in_map. auto.
      + intros H. apply in_app_iff in H as [H|H]; [apply in_pairs in H as (A & _); auto|]. apply in_map_iff in H as (x & E & Hx). injection E as E. apply Nm. rewrite <- E. apply in_map. auto.
      + intros lam' mu' H. apply in_app_iff in H as [H|H]; [auto|]. apply in_map_iff in H as (x & E & Hx). injection E as <- <-. split; [auto|]. split; [|auto]. apply in_map. rewrite Ec. apply in_app_iff. auto.
      + auto.
      + pose proof (boff_bound n lam r 0 P Hn Hr) as Bb. pose proof (dpos (n - 1) mu ltac:(lia) (corner_part n lam r P Hr)) as Mp. fold mu in Bb. rewrite Vv by (rewrite Er; lia). f_equal. rewrite Er. replace (boff n lam r) with (boff n lam r + 0) by lia. apply (cont_boff n lam r 0); auto. fold mu. lia.
      + destruct dcs as [|r0 dcs].
        * left. destruct Hp as [(-> & _)|(Q & _ & N & _)]; [|congruence]. split; [auto|]. unfold mu0, belows. rewrite Ec. reflexivity.
        * right. destruct Hp as [(_ & N)|(Q & -> & _ & HQ)]; [discriminate|]. exists Q. split; [auto|]. split; [|auto]. unfold mu0, belows. rewrite Ec. cbn [app map hd]. intros E. apply Nm. rewrite E. left. auto.
      + rewrite Eb in E2. eexists. split; [exact E2|]. exists s2, (Some Q). split; [rewrite zsum_over_app, zsum_over_cons, zsum_over_nil; unfold hrow at 3; fold mu; rewrite Z.add_0_r; auto|]. split.
        * rewrite map_app, app_assoc. exact I2.
        * right. exists Q. split; [auto|]. split; [|auto]. destruct dcs; discriminate.
    - rewrite Est. cbn [bind]. exists s'. split; [auto|]. unfold pairs. rewrite flat_map_app. cbn [flat_map]. rewrite app_nil_r. unfold belows. rewrite map_map. exact I'.
  Qed.

  Lemma all_steps s : inv [] s -> exists s', foldM (fun p s =>
         o <- irr_new (fst p) ;;
         JMl <- irr_jm o (io_n o) ;;
         mus <- ip_foreach_sub (fst p) ;;
         r <- foldM (le_mu r1 r2 o n sub evec JMl (snd p)) mus (s, 0, None) ;;
         let '(s, _, _) := r in Ret s) (cgt l1 l2) s = Ret s' /\ inv (pairs ks) s'.
  Proof.
    intros I. apply (foldM_prefix (fun pre s => inv (pairs (map fst pre)) s)); [exact I|]. intros pre (lam, m) post s1 E I1. cbn [fst snd].
    destruct (cgt_ok n l1 l2 ltac:(lia) P1 P2) as (PT & _). pose proof PT as (T & _). pose proof (type_nodup n _ T) as Nt. assert (In (lam, m) (cgt l1 l2)) as Hin by (rewrite E; apply in_app_iff; right; left; auto).
    assert (is_part n lam) as P. { apply (in_map fst) in Hin. apply (cgt_keys n l1 l2) in Hin; auto; [apply Hin|lia]. } assert (m = KZ lam) as -> by (rewrite <- (mult_in _ lam m Nt Hin); apply (prod_type_kz n l1 l2); auto; lia).
    rewrite map_app. cbn [map fst]. apply (lam_step (map fst pre) lam (map fst post)); [|auto]. unfold ks. rewrite E, map_app. reflexivity.
  Qed.

  Lemma start_ok : inv [] (asl (fun mu => mident (WM mu)) keys, [], asl Dl keys).
  Proof.
    exists (fun mu => mident (WM mu)), Dl. split; [split; [auto|split; [auto|split; [apply type_nil|reflexivity]]]|]. intros mu Hm. destruct (Usize mu Hm) as (_ & _ & Z0). split; [auto|]. split; [auto|]. split; [auto|]. split; [intros lam c a []|]. intros i Hi. reflexivity.
  Qed.
End Fold.
