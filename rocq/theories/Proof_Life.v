(* The destructor of an irrep object. *)
From Coq Require Import ZArith List Bool Lia.
From Verif Require Import Model_Base Model_Perm Model_Irrep Spec_Perm Spec_Life Model_Life.
From Verif Require Import Proof_Base Proof_Perm Proof_Cox Proof_Rep.
Import ListNotations.
Open Scope Z_scope.

(* the five states an object can be in, apart from the cache *)
Inductive stage := Fresh | Yor | Tens | YorTens | TensYor.
Definition at_stage (g : stage) (jm : list Z) : life :=
  match g with
  | Fresh => Life Null Wild Wild Null Null Null Null Null jm []
  | Yor => Life (To 0) (To 1) (To 2) Null Null Null Null Null jm [true; true; true]
  | Tens => Life Null Wild Wild (To 0) (To 1) (To 2) (To 3) (To 4) jm [true; true; true; true; true]
  | YorTens => Life (To 0) (To 1) (To 2) (To 3) (To 4) (To 5) (To 6) (To 7) jm [true; true; true; true; true; true; true; true]
  | TensYor => Life (To 5) (To 6) (To 7) (To 0) (To 1) (To 2) (To 3) (To 4) jm [true; true; true; true; true; true; true; true]
  end.
Definition has_yor (g : stage) : bool := match g with Fresh | Tens => false | _ => true end.
Definition add_yor (g : stage) : stage := match g with Fresh => Yor | Tens => TensYor | g => g end.
Definition add_tens (g : stage) : stage := match g with Fresh => Tens | Yor => YorTens | g => g end.

Lemma yor_step g jm : lf_computeYOR (at_stage g jm) = Ret (at_stage (add_yor g) jm).
Proof. destruct g; reflexivity. Qed.
Lemma tens_step g jm : lf_computeYORtensors (at_stage g jm) = Ret (at_stage (add_tens g) jm).
Proof. destruct g; reflexivity. Qed.

Definition iter (f : stage -> stage) (w : list Z) (g : stage) : stage := match w with [] => g | _ => f g end.

Lemma fold_yor w : forall g jm, foldM (fun (_ : Z) s => lf_computeYOR s) w (at_stage g jm) = Ret (at_stage (iter add_yor w g) jm).
Proof.
  induction w as [|x w IH]; intros g jm; cbn [foldM iter]; [reflexivity|].
  rewrite yor_step. cbn [bind]. rewrite IH. destruct w, g; reflexivity.
Qed.
Lemma fold_tens w : forall g jm, foldM (fun (_ : Z) s => lf_computeYORtensors s) w (at_stage g jm) = Ret (at_stage (iter add_tens w g) jm).
Proof.
  induction w as [|x w IH]; intros g jm; cbn [foldM iter]; [reflexivity|].
  rewrite tens_step. cbn [bind]. rewrite IH. destruct w, g; reflexivity.
Qed.

Lemma iter_yor w g : has_yor (iter add_yor w g) = true <-> has_yor g = true \/ w <> [].
Proof. destruct w; cbn [iter]; [intuition congruence|]. destruct g; cbn; intuition congruence. Qed.
Lemma iter_tens w g : has_yor (iter add_tens w g) = has_yor g.
Proof. destruct w, g; reflexivity. Qed.
Lemma iter_app w w' g : iter add_yor w' (iter add_yor w g) = iter add_yor (w ++ w') g.
Proof. destruct w, w', g; reflexivity. Qed.

Lemma zrange_ne lo hi : zrange lo hi <> [] <-> lo < hi.
Proof.
  destruct (Z.ltb_spec lo hi).
  - rewrite zrange_cons by auto. split; [auto|discriminate].
  - rewrite zrange_nil by lia. split; [congruence|lia].
Qed.
Lemma rev_ne {A} (l : list A) : rev l <> [] <-> l <> [].
Proof.
  destruct l as [|x l]; cbn [rev]; [tauto|]. split; [discriminate|].
  intros _ E. apply app_eq_nil in E. destruct E; discriminate.
Qed.

(* the generators one call applies *)
Definition cyc_word (a b : Z) : list Z := if a <? b then rev (zrange a b) else zrange b a.
Lemma act_cycle_word {S} (act : Z -> S -> outcome S) a b s : act_cycle act (mkCyc a b) s = foldM act (cyc_word a b) s.
Proof.
  unfold act_cycle, cyc_word, zford, zfor. cbn [cy_a cy_b]. destruct (a <? b); [|reflexivity].
  now replace (b - 1 + 1) with b by lia.
Qed.
Lemma cyc_word_ne a b : cyc_word a b <> [] <-> a <> b.
Proof.
  unfold cyc_word. destruct (Z.ltb_spec a b); [rewrite rev_ne|]; rewrite zrange_ne; lia.
Qed.
Definition transp_word (i j : Z) : list Z :=
  rev (zrange (Z.min i j) (Z.max i j)) ++ zrange (Z.min i j + 1) (Z.max i j).
Lemma act_transp_word {S} (act : Z -> S -> outcome S) i j s : act_transp act (mkTransp i j) s = foldM act (transp_word i j) s.
Proof.
  unfold act_transp, transp_word, zford, zfor. cbn [tr_i tr_j]. rewrite foldM_app.
  now replace (Z.max i j - 1 + 1) with (Z.max i j) by lia.
Qed.
Lemma transp_word_ne i j : transp_word i j <> [] <-> i <> j.
Proof.
  unfold transp_word. destruct (Z.eqb_spec i j) as [->|N].
  - rewrite Z.min_id, Z.max_id, !zrange_nil by lia. cbn. tauto.
  - split; [auto|]. intros _ E. apply app_eq_nil in E. destruct E as [E _].
    revert E. apply rev_ne, zrange_ne. lia.
Qed.

Lemma pword_ne n sigma : 1 <= n -> is_perm n sigma ->
  (pword (Z.to_nat n) sigma <> [] <-> exists i, 1 <= i <= n /\ img sigma i <> i).
Proof.
  intros Hn P. assert (En : Z.of_nat (Z.to_nat n) = n) by lia.
  assert (Hid : pword (Z.to_nat n) (pid n) = []).
  { pose proof (@pword_pid (list Z) (fun j x => j :: x) (Z.to_nat n) []) as H. rewrite En in H.
    destruct (pword (Z.to_nat n) (pid n)) as [|j w]; [reflexivity|]. exfalso. unfold aw in H. cbn [fold_left] in H.
    assert (G : forall w l, l <> [] -> fold_left (fun x j => j :: x) w l <> ([] : list Z)).
    { clear. induction w as [|j w IH]; intros l Hl; cbn [fold_left]; [auto|]. apply IH. discriminate. }
    revert H. apply G. discriminate. }
  split.
  - intros H. destruct (Z.eq_dec 0 0) as [_|]; [|lia].
    assert (D : sigma = pid n \/ exists i, 1 <= i <= n /\ img sigma i <> i).
    { assert (D : forall k, 0 <= k -> k <= n -> (forall i, 1 <= i <= k -> img sigma i = i) \/ exists i, 1 <= i <= n /\ img sigma i <> i).
      { refine (natlike_ind _ _ _).
        - left. intros; lia.
        - intros k Hk IH Hle. destruct IH as [IH|IH]; [lia| |auto].
          destruct (Z.eq_dec (img sigma (Z.succ k)) (Z.succ k)) as [E|E].
          + left. intros i Hi. destruct (Z.eq_dec i (Z.succ k)) as [->|]; [auto|apply IH; lia].
          + right. exists (Z.succ k). split; [lia|auto]. }
      destruct (D n) as [D1|D1]; [lia|lia| |auto]. left. apply (list_ext _ _ 0).
      - rewrite (is_perm_len _ _ P). unfold pid. rewrite zlen_ztab; lia.
      - intros i Hi. rewrite (is_perm_len _ _ P) in Hi. specialize (D1 (i + 1)).
        unfold img in D1. replace (i + 1 - 1) with i in D1 by lia. unfold znth at 1. rewrite D1 by lia.
        unfold pid. rewrite znth_ztab; lia. }
    destruct D as [->|D]; [congruence|auto].
  - intros [i [Hi Ni]] E. apply Ni.
    assert (Ep : sigma = pid n).
    { assert (P' : is_perm (Z.of_nat (Z.to_nat n)) sigma) by (now rewrite En).
      pose proof (pword_pid_perm (Z.to_nat n) sigma P') as H. rewrite E, En in H. symmetry. exact H. }
    rewrite Ep. apply img_pid. lia.
Qed.

Definition inv (s : life) (yor : Prop) : Prop :=
  exists g jm, s = at_stage g jm /\ (has_yor g = true <-> yor) /\ (forall k, In k jm -> 2 <= k -> yor).

Lemma lf_jm_at g jm : lf_jm (at_stage g jm) = jm.
Proof. destruct g; reflexivity. Qed.
Lemma push_jm g jm k : let s := at_stage g jm in
  Life (lf_YORt s) (lf_YOR1 s) (lf_YOR2 s)
                (lf_ndiags s) (lf_diagIndices s) (lf_diagCoeffs s) (lf_givensIndices s) (lf_givensCoeffs s)
                (lf_jm s ++ [k]) (lf_blocks s) = at_stage g (jm ++ [k]).
Proof. destruct g; reflexivity. Qed.

Lemma use_word n u s yor w :
  (forall g jm, s = at_stage g jm -> lf_use n u s = foldM (fun (_ : Z) s => lf_computeYOR s) w s) ->
  (w <> [] <-> needs_tables n u) ->
  inv s yor -> exists s', lf_use n u s = Ret s' /\ inv s' (yor \/ needs_tables n u).
Proof.
  intros H W (g & jm & E & Y & J). rewrite (H g jm E), E, fold_yor. eexists. split; [reflexivity|].
  exists (iter add_yor w g), jm. split; [reflexivity|]. split.
  - rewrite iter_yor. tauto.
  - intros k Hk H2. left. eauto.
Qed.

Lemma view_word n u s yor w :
  (forall g jm, s = at_stage g jm -> lf_use n u s = foldM (fun (_ : Z) s => lf_computeYORtensors s) w s) ->
  (needs_tables n u <-> False) ->
  inv s yor -> exists s', lf_use n u s = Ret s' /\ inv s' (yor \/ needs_tables n u).
Proof.
  intros H W (g & jm & E & Y & J). rewrite (H g jm E), E, fold_tens. eexists. split; [reflexivity|].
  exists (iter add_tens w g), jm. split; [reflexivity|]. split.
  - rewrite iter_tens. tauto.
  - intros k Hk H2. left. eauto.
Qed.

Lemma jm_word n k g jm : k <= n -> existsb (Z.eqb k) jm = false ->
  exists w, (w <> [] <-> 2 <= k) /\ lf_use n (UseJM k) (at_stage g jm) = Ret (at_stage (iter add_yor w g) (jm ++ [k])).
Proof.
  intros Hk E. cbn [lf_use]. destruct (Z.leb_spec k n); [|lia]. cbn [assert_ bind].
  rewrite lf_jm_at, E.
  set (body := fun (i : Z) s => _).
  assert (B : forall l g, exists w, (w <> [] <-> l <> []) /\ foldM body l (at_stage g jm) = Ret (at_stage (iter add_yor w g) jm)).
  { induction l as [|i l IH]; intros g'; cbn [foldM].
    - exists []. split; [tauto|reflexivity].
    - unfold body at 1. rewrite yor_step. cbn [bind].
      unfold act_cycle_inv, zfor. cbn [cy_a cy_b]. rewrite fold_yor. cbn [bind].
      destruct (IH (iter add_yor (zrange (i + 1) k) (add_yor g'))) as (w & W1 & W2).
      rewrite W2. exists [i]. split; [split; discriminate|]. cbn [iter].
      destruct w, (zrange (i + 1) k), g'; reflexivity. }
  unfold zford. destruct (B (rev (zrange 1 (k - 1 + 1))) g) as (w & W1 & W2).
  rewrite W2. cbn [bind]. exists w. split.
  - rewrite W1, rev_ne, zrange_ne. lia.
  - f_equal. apply push_jm.
Qed.

Lemma char_word mu : forall g jm, exists w, (w <> [] <-> exists m, In m mu /\ m <> 1) /\
  exists a, zfor 0 (zlen mu)
             (fun i st => let '(s, a) := st in
                m <- rd mu i ;;
                s <- act_cycle (fun (_ : Z) s => lf_computeYOR s) (mkCyc a (a + m - 1)) s ;;
                Ret (s, a + m))
             (at_stage g jm, 1) = Ret (at_stage (iter add_yor w g) jm, a).
Proof.
  intros g jm. set (body := fun (i : Z) (st : life * Z) => _).
  assert (G : forall k, 0 <= k -> k <= zlen mu -> exists w,
     (w <> [] <-> exists j, 0 <= j < k /\ znth mu j 0 <> 1) /\
     exists a, zfor 0 k body (at_stage g jm, 1) = Ret (at_stage (iter add_yor w g) jm, a)).
  { refine (natlike_ind _ _ _).
    - intros _. exists []. split; [split; [tauto|intros (j & Hj & _); lia]|]. exists 1. rewrite zfor_nil by lia. reflexivity.
    - intros k Hk IH Hle. destruct IH as (w & W & a & E); [lia|]. unfold Z.succ in *.
      rewrite zfor_snoc by lia. rewrite E. cbn [bind]. unfold body at 1. rewrite (rd_ok mu k 0) by lia. cbn [bind].
      rewrite act_cycle_word, fold_yor, iter_app. cbn [bind].
      eexists. split; [|eexists; reflexivity].
      pose proof (cyc_word_ne a (a + znth mu k 0 - 1)) as C.
      split.
      + intros H. destruct w as [|x w].
        * cbn [app] in H. exists k. split; [lia|]. apply C in H. lia.
        * destruct W as [W _]. destruct W as (j & Hj & Nj); [discriminate|]. exists j. split; [lia|auto].
      + intros (j & Hj & Nj) E0. apply app_eq_nil in E0. destruct E0 as [E1 E2].
        destruct (Z.eq_dec j k) as [->|].
        * apply (proj2 C); [lia|auto].
        * apply (proj2 W); [|auto]. exists j. split; [lia|auto]. }
  destruct (G (zlen mu)) as (w & W & a & E); [apply zlen_nonneg|lia|].
  exists w. split; [|eauto]. rewrite W. split.
  - intros (j & Hj & Nj). exists (znth mu j 0). split; [apply znth_In; auto|auto].
  - intros (m & Hm & Nm). destruct (In_znth mu m 0 Hm) as (j & Hj & E'). exists j. split; [auto|congruence].
Qed.

Lemma use_ok n u s yor : 1 <= n -> proper n u -> inv s yor ->
  exists s', lf_use n u s = Ret s' /\ inv s' (yor \/ needs_tables n u).
Proof.
  intros Hn P I. destruct u; cbn [proper] in P.
  - apply (use_word n _ s yor [tau]); auto.
    + intros g jm ->. cbn [lf_use foldM]. rewrite bind_Ret. reflexivity.
    + cbn. split; [auto|discriminate].
  - apply (use_word n _ s yor (pword (Z.to_nat n) sigma)); auto.
    + intros g jm ->. cbn [lf_use]. apply act_perm_word; auto.
    + apply pword_ne; auto.
  - apply (use_word n _ s yor (cyc_word a b)); auto.
    + intros g jm ->. cbn [lf_use]. apply act_cycle_word.
    + apply cyc_word_ne.
  - apply (use_word n _ s yor (zrange a b)); [reflexivity|apply zrange_ne|exact I].
  - apply (use_word n _ s yor (transp_word i j)); auto.
    + intros g jm ->. cbn [lf_use]. apply act_transp_word.
    + apply transp_word_ne.
  - destruct I as (g & jm & -> & Y & J). cbn [lf_use needs_tables].
    destruct (char_word mu g jm) as (w & W & a & E). rewrite E. cbn [bind fst]. eexists. split; [reflexivity|].
    exists (iter add_yor w g), jm. split; [reflexivity|]. split.
    + rewrite iter_yor. tauto.
    + intros k Hk H2. left. eauto.
  - destruct I as (g & jm & -> & Y & J).
    destruct (existsb (Z.eqb k) jm) eqn:Ek.
    + cbn [lf_use needs_tables]. destruct (Z.leb_spec k n); [|lia]. cbn [assert_ bind]. rewrite lf_jm_at, Ek.
      eexists. split; [reflexivity|]. exists g, jm. split; [reflexivity|].
      apply existsb_exists in Ek. destruct Ek as (k' & Hk' & Ek). apply Z.eqb_eq in Ek. subst k'. split.
      * specialize (J k Hk'). tauto.
      * intros k0 H0 H2. left. eauto.
    + destruct (jm_word n k g jm P Ek) as (w & W & E). rewrite E. eexists. split; [reflexivity|].
      exists (iter add_yor w g), (jm ++ [k]). split; [reflexivity|]. cbn [needs_tables]. split.
      * rewrite iter_yor. tauto.
      * intros k0 H0 H2. apply in_app_iff in H0. destruct H0 as [H0|[<-|[]]]; [left; eauto|right; auto].
  - apply (view_word n _ s yor [tau]); auto.
    + intros g jm ->. cbn [lf_use foldM]. rewrite bind_Ret. reflexivity.
    + cbn. tauto.
  - apply (view_word n _ s yor (pword (Z.to_nat n) sigma)); auto.
    + intros g jm ->. cbn [lf_use]. apply act_perm_word; auto.
    + cbn. tauto.
  - apply (view_word n _ s yor (cyc_word a b)); auto.
    + intros g jm ->. cbn [lf_use]. apply act_cycle_word.
    + cbn. tauto.
  - apply (view_word n _ s yor (transp_word i j)); auto.
    + intros g jm ->. cbn [lf_use]. apply act_transp_word.
    + cbn. tauto.
Qed.

Lemma run_ok n h : 1 <= n -> Forall (proper n) h -> forall s yor, inv s yor ->
  exists s', lf_run n h s = Ret s' /\ inv s' (yor \/ Exists (needs_tables n) h).
Proof.
  intros Hn. induction h as [|u h IH]; intros P s yor I.
  - exists s. split; [reflexivity|]. destruct I as (g & jm & E & Y & J). exists g, jm. split; [auto|].
    assert (~ Exists (needs_tables n) []) by (intros X; inversion X). split; [tauto|]. intros; left; eauto.
  - inversion P as [|? ? P1 P2]; subst. destruct (use_ok n u s yor Hn P1 I) as (s1 & E1 & I1).
    destruct (IH P2 s1 _ I1) as (s2 & E2 & I2). exists s2. split.
    + unfold lf_run. cbn [foldM]. rewrite E1. exact E2.
    + destruct I2 as (g & jm & E & Y & J). exists g, jm. split; [auto|].
      assert (Q : (yor \/ Exists (needs_tables n) (u :: h)) <-> ((yor \/ needs_tables n u) \/ Exists (needs_tables n) h))
        by (rewrite Exists_cons; tauto).
      split; [tauto|]. intros k Hk H2. apply Q. eauto.
Qed.

Lemma inv_new : inv lf_new False.
Proof. exists Fresh, []. split; [reflexivity|]. split; [cbn; split; [discriminate|tauto]|intros k []]. Qed.

Lemma dtor_ok g jm : has_yor g = true -> exists bl, lf_dtor (at_stage g jm) = Ret bl /\ Forall (fun b => b = false) bl.
Proof.
  intros H. destruct g; try discriminate; eexists; (split; [vm_compute; reflexivity|repeat constructor]).
Qed.
Lemma dtor_ub g jm : has_yor g = false -> lf_dtor (at_stage g jm) = UB.
Proof. intros H. destruct g; try discriminate; reflexivity. Qed.

Lemma destroy_iff n h : 1 <= n -> Forall (proper n) h ->
  exists s, lf_run n h lf_new = Ret s /\
    (Exists (needs_tables n) h -> exists bl, lf_dtor s = Ret bl /\ Forall (fun b => b = false) bl) /\
    (~ Exists (needs_tables n) h -> lf_dtor s = UB).
Proof.
  intros Hn P. destruct (run_ok n h Hn P lf_new False inv_new) as (s & E & I). exists s. split; [auto|].
  destruct I as (g & jm & -> & Y & _). split; intros H.
  - apply dtor_ok. tauto.
  - apply dtor_ub. destruct (has_yor g); [tauto|reflexivity].
Qed.
