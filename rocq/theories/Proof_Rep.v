(* Actions of permutations, cycles and transpositions through the generators; representation matrices. *)
From Coq Require Import ZArith List Bool Lia ZifyBool ZifyNat Reals Lra.
From Verif Require Import Model_Base Model_Perm Model_Part Model_Comb Model_Tab Model_Irrep.
From Verif Require Import Spec_Perm Spec_Part Spec_Tab Spec_Rep.
From Verif Require Import Proof_Base Proof_Perm Proof_Part Proof_Tab Proof_TabProps Proof_Cycles Proof_Cox Proof_Yor Proof_Sum Proof_Irrep.
Import ListNotations.
Open Scope Z_scope.

(* ---- the loops of act_perm run through the word of the permutation ---- *)

Fixpoint shl (k : nat) (p : list Z) : list Z :=
  match k with
  | O => []
  | S k' => shl k' (prest (Z.of_nat k') p) ++ [img p (Z.of_nat k' + 1)]
  end.

Lemma zlen_shl k : forall p, zlen (shl k p) = Z.of_nat k.
Proof. induction k as [|k IH]; intros p; [reflexivity|]. cbn [shl]. rewrite zlen_app, IH. change (zlen [img p (Z.of_nat k + 1)]) with 1. lia. Qed.

Lemma dec_loop i a p : 1 <= i -> i <= zlen p + 1 ->
  exists p', zfor 1 i (fun j p => x <- rd p (j - 1) ;; if x >? a then wr p (j - 1) (x - 1) else Ret p) p = Ret p' /\ zlen p' = zlen p /\
    forall k, 0 <= k -> znth p' k 0 = if k <? i - 1 then pdec a (znth p k 0) else znth p k 0.
Proof.
  intros Hi Hl.
  destruct (zfor_inv (fun j p' => zlen p' = zlen p /\ forall k, 0 <= k -> znth p' k 0 = if k <? j - 1 then pdec a (znth p k 0) else znth p k 0) 1 i
    (fun j p => x <- rd p (j - 1) ;; if x >? a then wr p (j - 1) (x - 1) else Ret p) p) as (p' & E & K); auto.
  - split; auto. intros k Hk. destruct (Z.ltb_spec k (1 - 1)); [lia|auto].
  - intros j p1 Hj (L & V). rewrite (rd_ok _ _ 0) by lia. cbn [bind]. rewrite V by lia. destruct (Z.ltb_spec (j - 1) (j - 1)); [lia|].
    destruct (znth p (j - 1) 0 >? a) eqn:Q.
    + rewrite wr_ok by lia. eexists. split; [reflexivity|]. split; [rewrite zlen_zupd; lia|]. intros k Hk. rewrite znth_zupd by lia.
      rewrite V by lia. destruct (Z.eqb_spec k (j - 1)) as [->|].
      * destruct (Z.ltb_spec (j - 1) (j + 1 - 1)); [|lia]. unfold pdec. rewrite Q. reflexivity.
      * destruct (Z.ltb_spec k (j - 1)), (Z.ltb_spec k (j + 1 - 1)); auto; lia.
    + eexists. split; [reflexivity|]. split; [auto|]. intros k Hk. rewrite V by lia.
      destruct (Z.ltb_spec k (j - 1)), (Z.ltb_spec k (j + 1 - 1)); auto; try lia.
      assert (k = j - 1) by lia. subst k. unfold pdec. rewrite Q. reflexivity.
  - exists p'. auto.
Qed.

Lemma shifts_loop k : forall q p sh, is_perm (Z.of_nat k) q -> Z.of_nat k <= zlen p -> zlen p = zlen sh ->
  (forall i, 1 <= i <= Z.of_nat k -> znth p (i - 1) 0 = img q i) ->
  exists p', zford (Z.of_nat k) 1
         (fun i st =>
            let '(p, sh) := st in
            a <- p_call p i ;;
            sh <- wr sh (i - 1) a ;;
            p <- zfor 1 i (fun j p => x <- rd p (j - 1) ;; if x >? a then wr p (j - 1) (x - 1) else Ret p) p ;;
            Ret (p, sh)) (p, sh) = Ret (p', shl k q ++ skipn k sh).
Proof.
  induction k as [|k IH]; intros q p sh Q Hk Hl V.
  - rewrite zford_nil by lia. exists p. reflexivity.
  - rewrite zford_cons by lia. unfold p_call at 1. rewrite (rd_ok _ _ 0) by lia. cbn [bind]. rewrite V by lia.
    rewrite wr_ok by lia. cbn [bind].
    destruct (dec_loop (Z.of_nat (S k)) (img q (Z.of_nat (S k))) p) as (p1 & E1 & L1 & V1); [lia|lia|]. rewrite E1. cbn [bind].
    replace (Z.of_nat (S k) - 1) with (Z.of_nat k) by lia. replace (Z.of_nat (S k)) with (Z.of_nat k + 1) in * by lia.
    destruct (IH (prest (Z.of_nat k) q) p1 (zupd sh (Z.of_nat k) (img q (Z.of_nat k + 1)))) as (p' & E).
    + apply is_perm_prest; [lia|auto].
    + lia.
    + rewrite zlen_zupd; lia.
    + intros i Hi. rewrite V1 by lia. destruct (Z.ltb_spec (i - 1) (Z.of_nat k + 1 - 1)); [|lia]. rewrite V by lia. rewrite img_prest by lia. reflexivity.
    + exists p'. rewrite E. f_equal. f_equal. cbn [shl]. rewrite <- app_assoc. f_equal. unfold zupd. rewrite Nat2Z.id.
      rewrite skipn_app. rewrite firstn_length. unfold zlen in *. replace (Nat.min k (length sh)) with k by lia.
      rewrite skipn_all2 by (rewrite firstn_length; lia). cbn [app]. replace (k - k)%nat with 0%nat by lia. reflexivity.
Qed.

Lemma perm_shifts_ok n sigma : is_perm n sigma -> perm_shifts n sigma = Ret (shl (Z.to_nat n) sigma).
Proof.
  intros P. pose proof (is_perm_len _ _ P) as L. pose proof (is_perm_nonneg _ _ P) as Hn. unfold perm_shifts. rewrite L, Z.eqb_refl. cbn [assert_ bind].
  destruct (shifts_loop (Z.to_nat n) sigma sigma (repeat 0 (Z.to_nat n))) as (p' & E).
  - replace (Z.of_nat (Z.to_nat n)) with n by lia. auto.
  - lia.
  - rewrite zlen_repeat. lia.
  - intros i Hi. reflexivity.
  - replace (Z.of_nat (Z.to_nat n)) with n in E by lia. rewrite E. cbn [bind snd]. rewrite skipn_all2 by (rewrite repeat_length; lia). rewrite app_nil_r. reflexivity.
Qed.

Lemma word_loop {X} (act : Z -> X -> outcome X) k : forall q sh (A : X), is_perm (Z.of_nat k) q -> (1 <= k)%nat ->
  (forall i, 1 <= i <= Z.of_nat k -> znth sh (i - 1) 0 = znth (shl k q) (i - 1) 0) -> Z.of_nat k <= zlen sh ->
  zfor 2 (Z.of_nat k + 1) (fun i A => s <- rd sh (i - 1) ;; zford (i - 1) s act A) A = foldM act (pword k q) A.
Proof.
  induction k as [|k IH]; intros q sh A Q Hk V L; [lia|]. destruct k as [|k].
  - rewrite zfor_nil by lia. cbn [pword]. pose proof (is_perm_img _ _ 1 Q ltac:(lia)). change (Z.of_nat 0 + 1) with 1. rewrite zrange_nil by lia. reflexivity.
  - set (m := S k) in *. replace (Z.of_nat (S m) + 1) with ((Z.of_nat m + 1) + 1) by lia. rewrite zfor_snoc by lia.
    change (pword (S m) q) with (pword m (prest (Z.of_nat m) q) ++ rev (zrange (img q (Z.of_nat m + 1)) (Z.of_nat m + 1))).
    rewrite foldM_app. replace (Z.of_nat (S m)) with (Z.of_nat m + 1) in * by lia.
    rewrite (IH (prest (Z.of_nat m) q) sh); [| apply is_perm_prest; [lia|auto] |lia| |lia].
    + destruct (foldM act (pword m (prest (Z.of_nat m) q)) A); cbn [bind]; auto.
      rewrite (rd_ok _ _ 0) by lia. cbn [bind]. rewrite V by lia. cbn [shl]. rewrite znth_app by lia. rewrite zlen_shl.
      destruct (Z.ltb_spec (Z.of_nat m + 1 - 1) (Z.of_nat m)); [lia|]. replace (Z.of_nat m + 1 - 1 - Z.of_nat m) with 0 by lia.
      change (znth [img q (Z.of_nat m + 1)] 0 0) with (img q (Z.of_nat m + 1)). unfold zford. replace (Z.of_nat m + 1 - 1 + 1) with (Z.of_nat m + 1) by lia. reflexivity.
    + intros i Hi. rewrite V by lia. cbn [shl]. rewrite znth_app by lia. rewrite zlen_shl. destruct (Z.ltb_spec (i - 1) (Z.of_nat m)); [auto|lia].
Qed.

Lemma act_perm_word {X} (act : Z -> X -> outcome X) n sigma (A : X) : 1 <= n -> is_perm n sigma ->
  act_perm act n sigma A = foldM act (pword (Z.to_nat n) sigma) A.
Proof.
  intros Hn P. unfold act_perm. rewrite perm_shifts_ok by auto. cbn [bind].
  assert (Z.of_nat (Z.to_nat n) = n) as E by lia.
  pose proof (word_loop act (Z.to_nat n) sigma (shl (Z.to_nat n) sigma) A) as W. rewrite E in W. apply W; auto; [lia|]. rewrite zlen_shl. lia.
Qed.

Lemma perm_shifts_wrong n sigma : zlen sigma <> n -> perm_shifts n sigma = Abort.
Proof. intros H. unfold perm_shifts. destruct (Z.eqb_spec (zlen sigma) n); [contradiction|reflexivity]. Qed.

(* ---- cycles and transpositions as words ---- *)

Definition wcyc (a b : Z) : list Z := if a <? b then cyc a b else zrange b a.

Lemma act_cycle_word {X} (act : Z -> X -> outcome X) a b (A : X) : act_cycle act (mkCyc a b) A = foldM act (wcyc a b) A.
Proof. unfold act_cycle, wcyc, zford, zfor, cyc. cbn [cy_a cy_b]. replace (b - 1 + 1) with b by lia. destruct (a <? b); reflexivity. Qed.

Lemma act_cycle_inv_word {X} (act : Z -> X -> outcome X) a b (A : X) : act_cycle_inv act (mkCyc a b) A = foldM act (zrange a b) A.
Proof. reflexivity. Qed.

Lemma act_cycle_block_word {X} (act : Z -> X -> outcome X) a b (A : X) : act_cycle_block act (mkCyc a b) A = foldM act (cyc a b) A.
Proof. unfold act_cycle_block, zford, cyc. cbn [cy_a cy_b]. replace (b - 1 + 1) with b by lia. reflexivity. Qed.

Definition wtr (i j : Z) : list Z := cyc (Z.min i j) (Z.max i j) ++ zrange (Z.min i j + 1) (Z.max i j).

Lemma act_transp_word {X} (act : Z -> X -> outcome X) i j (A : X) : act_transp act (mkTransp i j) A = foldM act (wtr i j) A.
Proof.
  unfold act_transp, wtr, zford, zfor, cyc. cbn [tr_i tr_j]. rewrite foldM_app. replace (Z.max i j - 1 + 1) with (Z.max i j) by lia. reflexivity.
Qed.

Lemma img_up_word n a b q i : is_perm n q -> 1 <= a -> a <= b -> b <= n -> 1 <= i <= n ->
  img (aw (pstep n) (zrange a b) q) i = (if img q i =? a then b else if (a <? img q i) && (img q i <=? b) then img q i - 1 else img q i).
Proof.
  intros P Ha Hb Hn Hi. remember (Z.to_nat (b - a)) as d eqn:Hd. revert b Hb Hn Hd. induction d as [|d IH]; intros b Hb Hn Hd.
  - assert (b = a) by lia. subst b. rewrite zrange_nil by lia. unfold aw; cbn [fold_left]. zc.
  - replace b with (b - 1 + 1) by lia. rewrite zrange_snoc by lia. rewrite aw_app. unfold aw at 1; cbn [fold_left].
    rewrite img_pstep; [|apply (aw_ok eq (is_perm n) (pstep n) n); auto using cox_perm; intros j Hj; apply in_zrange in Hj; lia|lia].
    rewrite (IH (b - 1)) by lia. unfold tfun. zc.
Qed.

Definition pw (n : Z) (w : list Z) : list Z := aw (pstep n) w (pid n).

Lemma is_perm_pw n w : 0 <= n -> (forall j, In j w -> 1 <= j < n) -> is_perm n (pw n w).
Proof. intros Hn H. apply (aw_ok eq (is_perm n) (pstep n) n); auto using cox_perm, is_perm_pid. Qed.

Lemma pw_wcyc n a b : 1 <= a <= n -> 1 <= b <= n -> pw n (wcyc a b) = pcyc n a b.
Proof.
  intros Ha Hb. assert (forall j, In j (wcyc a b) -> 1 <= j < n) as W.
  { unfold wcyc. intros j Hj. destruct (Z.ltb_spec a b); [apply in_cyc in Hj|apply in_zrange in Hj]; lia. }
  apply (perm_ext n); [apply is_perm_len; apply is_perm_pw; auto; lia|apply is_perm_len; apply is_perm_pcyc; lia|].
  intros i Hi. rewrite img_pcyc by lia. unfold pw, wcyc. destruct (Z.ltb_spec a b).
  - rewrite img_cyc_word by (first [lia | apply is_perm_pid; lia]). rewrite img_pid by lia. unfold cycf, cfun. zc.
  - rewrite img_up_word by (first [lia | apply is_perm_pid; lia]). rewrite img_pid by lia. unfold cfun. zc.
Qed.

Lemma pw_up n a b : 1 <= a -> a <= b -> b <= n -> pw n (zrange a b) = pcyc n b a.
Proof. intros. rewrite <- pw_wcyc by lia. unfold wcyc. destruct (Z.ltb_spec b a); [lia|reflexivity]. Qed.

Lemma pw_wtr n i j : 1 <= i <= n -> 1 <= j <= n -> pw n (wtr i j) = ptransp n i j.
Proof.
  intros Hi Hj. assert (forall k, In k (wtr i j) -> 1 <= k < n) as W.
  { unfold wtr. intros k Hk. apply in_app_iff in Hk as [Hk|Hk]; [apply in_cyc in Hk|apply in_zrange in Hk]; lia. }
  apply (perm_ext n); [apply is_perm_len; apply is_perm_pw; auto; lia|apply is_perm_len; apply is_perm_ptransp; lia|].
  intros k Hk. rewrite img_ptransp by lia. unfold pw, wtr. rewrite aw_app. set (q := aw (pstep n) (cyc (Z.min i j) (Z.max i j)) (pid n)).
  assert (is_perm n q) as Q by (apply (aw_ok eq (is_perm n) (pstep n) n); auto using cox_perm; [|apply is_perm_pid; lia]; intros k' Hk'; apply in_cyc in Hk'; lia).
  assert (img q k = cycf (Z.min i j) (Z.max i j) k) as Eq by (unfold q; rewrite img_cyc_word by (first [lia | apply is_perm_pid; lia]); rewrite img_pid by lia; reflexivity).
  destruct (Z_lt_dec (Z.min i j + 1) (Z.max i j)).
  - rewrite img_up_word by (auto; lia). rewrite Eq. unfold cycf, tfun. zc.
  - rewrite zrange_nil by lia. unfold aw; cbn [fold_left]. rewrite Eq. unfold cycf, tfun. zc.
Qed.

Lemma pw_pword n p : is_perm n p -> pw n (pword (Z.to_nat n) p) = p.
Proof.
  intros P. unfold pw. pose proof (is_perm_nonneg _ _ P). assert (Z.of_nat (Z.to_nat n) = n) as E by lia.
  pose proof (pword_pid_perm (Z.to_nat n) p) as W. rewrite E in W. auto.
Qed.

Lemma pword_in n p j : is_perm n p -> In j (pword (Z.to_nat n) p) -> 1 <= j < n.
Proof.
  intros P Hj. pose proof (is_perm_nonneg _ _ P). assert (Z.of_nat (Z.to_nat n) = n) as E by lia. rewrite <- E. apply (pword_range (Z.to_nat n) p); auto. rewrite E. auto.
Qed.

(* ---- actions on columns ---- *)

Section Columns.
  Variables (n : Z) (l : list Z) (o : irr).
  Hypothesis G : good n l o.
  Context {S : Type} (act : Z -> S -> outcome S) (ok : S -> Prop) {C : Type} (vw : S -> C -> Z -> R) (on : C -> bool).

  Definition fcol (f : Z -> R) (t : list (list Z)) : R := f (pos o t).

  Definition acts : Prop := forall tau s, 1 <= tau < n -> ok s -> exists s', act tau s = Ret s' /\ ok s' /\
    forall c i, 0 <= i < io_d o -> vw s' c i = if on c then TT tau (fcol (vw s c)) (tb o i) else vw s c i.

  Lemma fcol_tb f i : 0 <= i < io_d o -> fcol f (tb o i) = f i.
  Proof. intros Hi. unfold fcol. rewrite (pos_tb n l) by auto. reflexivity. Qed.

  Lemma fcol_eqS f F : (forall i, 0 <= i < io_d o -> f i = F (tb o i)) -> eqS l (fcol f) F.
  Proof. intros H t St. unfold fcol. destruct (pos_standard n l o t G St) as (B & E). rewrite H by auto. rewrite E. reflexivity. Qed.

  Lemma acts_word : acts -> forall w s, (forall j, In j w -> 1 <= j < n) -> ok s -> exists s', foldM act w s = Ret s' /\ ok s' /\
    forall c i, 0 <= i < io_d o -> vw s' c i = if on c then aw TT w (fcol (vw s c)) (tb o i) else vw s c i.
  Proof.
    intros H. induction w as [|j w IH]; intros s Hw O.
    - exists s. split; [reflexivity|]. split; auto. intros c i Hi. unfold aw; cbn [fold_left]. rewrite fcol_tb by auto. destruct (on c); reflexivity.
    - cbn [foldM]. destruct (H j s) as (s1 & E1 & O1 & V1); [apply Hw; left; auto|auto|]. rewrite E1. cbn [bind].
      destruct (IH s1) as (s2 & E2 & O2 & V2); auto; [intros; apply Hw; right; auto|]. exists s2. split; [exact E2|]. split; auto.
      intros c i Hi. rewrite V2, V1 by auto. destruct (on c) eqn:Q; auto. rewrite aw_cons.
      apply (aw_eqv (eqS l) (fun _ => True) TT n); auto; [apply cox_TT; apply G|intros; apply Hw; right; auto| |eapply tb_standard; eauto].
      apply fcol_eqS. intros k Hk. rewrite V1 by auto. rewrite Q. reflexivity.
  Qed.

  Lemma acts_perm_w : acts -> forall w s, (forall j, In j w -> 1 <= j < n) -> ok s -> exists s', foldM act w s = Ret s' /\ ok s' /\
    forall c i, 0 <= i < io_d o -> vw s' c i = if on c then Phi n (pw n w) (fcol (vw s c)) (tb o i) else vw s c i.
  Proof.
    intros H w s Hw O. destruct (acts_word H w s Hw O) as (s' & E & O' & V). exists s'. split; auto. split; auto.
    intros c i Hi. rewrite V by auto. destruct (on c); auto. apply (word_Phi n l); auto; try apply G. eapply tb_standard; eauto.
  Qed.

  Lemma acts_perm : acts -> forall p s, is_perm n p -> ok s -> exists s', act_perm act n p s = Ret s' /\ ok s' /\
    forall c i, 0 <= i < io_d o -> vw s' c i = if on c then Phi n p (fcol (vw s c)) (tb o i) else vw s c i.
  Proof.
    intros H p s P O. rewrite act_perm_word by (auto; apply G).
    destruct (acts_perm_w H (pword (Z.to_nat n) p) s) as (s' & E & O' & V); auto.
    - intros j Hj. pose proof (is_perm_nonneg _ _ P). assert (Z.of_nat (Z.to_nat n) = n) as E by lia. rewrite <- E. apply (pword_range (Z.to_nat n) p); auto. rewrite E. auto.
    - exists s'. split; auto. split; auto. intros c i Hi. rewrite V by auto. rewrite pw_pword by auto. reflexivity.
  Qed.

  Lemma acts_cycle : acts -> forall a b s, 1 <= a <= n -> 1 <= b <= n -> ok s -> exists s', act_cycle act (mkCyc a b) s = Ret s' /\ ok s' /\
    forall c i, 0 <= i < io_d o -> vw s' c i = if on c then Phi n (pcyc n a b) (fcol (vw s c)) (tb o i) else vw s c i.
  Proof.
    intros H a b s Ha Hb O. rewrite act_cycle_word. destruct (acts_perm_w H (wcyc a b) s) as (s' & E & O' & V); auto.
    - unfold wcyc. intros j Hj. destruct (Z.ltb_spec a b); [apply in_cyc in Hj|apply in_zrange in Hj]; lia.
    - exists s'. split; auto. split; auto. intros c i Hi. rewrite V by auto. rewrite pw_wcyc by auto. reflexivity.
  Qed.

  Lemma acts_cycle_block : acts -> forall a b s, 1 <= a -> a <= b -> b <= n -> ok s -> exists s', act_cycle_block act (mkCyc a b) s = Ret s' /\ ok s' /\
    forall c i, 0 <= i < io_d o -> vw s' c i = if on c then Phi n (pcyc n a b) (fcol (vw s c)) (tb o i) else vw s c i.
  Proof.
    intros H a b s Ha Hb Hn O. rewrite act_cycle_block_word. destruct (acts_perm_w H (cyc a b) s) as (s' & E & O' & V); auto.
    - intros j Hj. apply in_cyc in Hj. lia.
    - exists s'. split; auto. split; auto. intros c i Hi. rewrite V by auto. destruct (on c); auto. f_equal.
      destruct (Z.eq_dec a b) as [->|Nab].
      + rewrite cyc_nil by lia. rewrite pcyc_self by lia. reflexivity.
      + replace (cyc a b) with (wcyc a b); [rewrite pw_wcyc by lia; reflexivity|]. unfold wcyc. destruct (Z.ltb_spec a b); [auto|lia].
  Qed.

  Lemma acts_cycle_inv : acts -> forall a b s, 1 <= a -> a <= b -> b <= n -> ok s -> exists s', act_cycle_inv act (mkCyc a b) s = Ret s' /\ ok s' /\
    forall c i, 0 <= i < io_d o -> vw s' c i = if on c then Phi n (pcyc n b a) (fcol (vw s c)) (tb o i) else vw s c i.
  Proof.
    intros H a b s Ha Hb Hn O. rewrite act_cycle_inv_word. destruct (acts_perm_w H (zrange a b) s) as (s' & E & O' & V); auto.
    - intros j Hj. apply in_zrange in Hj. lia.
    - exists s'. split; auto. split; auto. intros c i Hi. rewrite V by auto. rewrite pw_up by lia. reflexivity.
  Qed.

  Lemma acts_transp : acts -> forall a b s, 1 <= a <= n -> 1 <= b <= n -> ok s -> exists s', act_transp act (mkTransp a b) s = Ret s' /\ ok s' /\
    forall c i, 0 <= i < io_d o -> vw s' c i = if on c then Phi n (ptransp n a b) (fcol (vw s c)) (tb o i) else vw s c i.
  Proof.
    intros H a b s Ha Hb O. rewrite act_transp_word. destruct (acts_perm_w H (wtr a b) s) as (s' & E & O' & V); auto.
    - unfold wtr. intros k Hk. apply in_app_iff in Hk as [Hk|Hk]; [apply in_cyc in Hk|apply in_zrange in Hk]; lia.
    - exists s'. split; auto. split; auto. intros c i Hi. rewrite V by auto. rewrite pw_wtr by auto. reflexivity.
  Qed.
End Columns.
