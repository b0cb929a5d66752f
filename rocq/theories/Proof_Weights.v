(* Weights. *)
From Coq Require Import ZArith List Bool Lia Reals Lra Sorting.Sorted Permutation.
From Verif Require Import Model_Base Model_Perm Model_Sn Model_Part Model_Comb Model_Tab Model_Irrep Model_Type Model_FFT Model_Vec Model_Char Model_CG Model_CGvec Model_VecB Model_Prod Model_Learn Model_Weights.
From Verif Require Import Spec_Perm Spec_Part Spec_Tab Spec_Rep Spec_Four Spec_Type Spec_FFT Spec_Vec Spec_CG Spec_CGvec Spec_VecB.
From Verif Require Import Proof_Base Proof_Perm Proof_Sn Proof_Part Proof_PartProps Proof_Tab Proof_TabProps Proof_Cycles Proof_Cox Proof_Yor Proof_Sum Proof_Irrep Proof_Rep Proof_Mat Proof_IrrepProps Proof_JM Proof_Conn Proof_Restr Proof_Type Proof_View Proof_Vec Proof_Vec2 Proof_Vec3 Proof_Vec4 Proof_Vec5 Proof_Vec6 Proof_CG Proof_CGvec1 Proof_CGvec2 Proof_CGvec3 Proof_CGvec4 Proof_CGvec5 Proof_CGvec6 Proof_CGvec7 Proof_VecB Proof_Complete Proof_FFTmath Proof_FFTlay Proof_FFTstep.
From Verif Require Import Spec_Life Model_Life Spec_Weights.
Import ListNotations.
Open Scope Z_scope.

Lemma um_find_put {V} (m : list (list Z * V)) k v l : Forall ppos (map fst m) -> ppos k -> ppos l -> um_find (um_put m k v) l = if pdec k l then Some v else um_find m l.
Proof.
  assert (forall a b, ppos a -> ppos b -> ip_eq a b = if pdec a b then true else false) as Q.
  { intros a b A B. destruct (pdec a b) as [->|N]; [apply ip_eq_rows; auto|]. destruct (ip_eq a b) eqn:E; auto. destruct N. apply ip_eq_pos; auto. }
  intros F K L. induction m as [|(x, w) m IH]; cbn [um_put um_find]; [rewrite Q by auto; destruct (pdec k l); reflexivity|].
  cbn [map fst] in F. inversion F as [|? ? X F']; subst. rewrite (Q x k) by auto. destruct (pdec x k) as [->|N]; cbn [um_find]; rewrite !Q by auto; [destruct (pdec k l); reflexivity|]. rewrite IH by auto. destruct (pdec x l) as [->|]; [|auto]. destruct (pdec k l); [congruence|auto].
Qed.
Lemma um_put_keys {V} (m : list (list Z * V)) k v : Forall ppos (map fst m) -> ppos k -> Forall ppos (map fst (um_put m k v)).
Proof. intros F K. induction m as [|(x, w) m IH]; cbn [um_put map fst] in *; [auto|]. inversion F; subst. destruct (ip_eq x k); cbn [map fst]; constructor; auto. Qed.

Lemma types_fold n fill xs : forall W y, NoDup (map fst xs) -> Forall (is_part n) (map fst xs) -> (forall p, In p xs -> 0 <= snd p) -> type_of n y -> (forall l, 0 <= mult y l) -> Forall ppos (map fst W) ->
  exists W' y', foldM (fun p st => let '(W, y) := st in c <- ty_call y (fst p) ;; let '(m, y) := c in
    if (snd p <? 0) || (m <? 0) then UB else Ret (um_put W (fst p) (W2 (mkMat (snd p) m (fill (fst p)))), y)) xs (W, y) = Ret (W', y') /\
  type_of n y' /\ (forall l, mult y' l = mult y l) /\ (forall l, In l (map fst y') <-> In l (map fst xs) \/ In l (map fst y)) /\
  (forall p, In p xs -> um_find W' (fst p) = Some (W2 (mkMat (snd p) (mult y (fst p)) (fill (fst p))))) /\ (forall l, ppos l -> ~ In l (map fst xs) -> um_find W' l = um_find W l).
Proof.
  induction xs as [|(k, m) xs IH]; intros W y N F P T M K; cbn [foldM].
  { exists W, y. split; [auto|]. split; [auto|]. split; [auto|]. split; [cbn; tauto|]. split; [intros p []|auto]. }
  cbn [map fst snd] in *. inversion N as [|? ? N1 N2]; subst. inversion F as [|? ? F1 F2]; subst. pose proof (P (k, m) (or_introl eq_refl)) as Hm. cbn [snd] in Hm.
  destruct (call_ok n y k T F1) as (y1 & E & T1 & I1 & M1 & _). rewrite E. cbn [bind]. pose proof (M k) as Mk. rewrite (proj2 (Z.ltb_ge m 0)), (proj2 (Z.ltb_ge (mult y k) 0)) by lia. cbn [orb bind].
  destruct (IH (um_put W k (W2 (mkMat m (mult y k) (fill k)))) y1) as (W' & y' & E' & T' & M' & I' & G1 & G2); auto.
  { intros p Hp. apply P. right; auto. }
  { intros l. rewrite M1. auto. }
  { apply um_put_keys; [auto|]. apply (is_part_ppos n); auto. }
  exists W', y'. split; [exact E'|]. split; [auto|]. split; [intros; rewrite M', M1; auto|]. split; [intros l; rewrite I', I1; cbn; intuition congruence|]. split.
  - intros p [<-|Hp]; cbn [fst snd]; [|rewrite G1, M1; auto]. rewrite G2 by (auto; apply (is_part_ppos n); auto). rewrite um_find_put by (auto; apply (is_part_ppos n); auto). destruct (pdec k k); [auto|contradiction].
  - intros l L Hl. rewrite G2 by (auto; intros X; apply Hl; right; auto). rewrite um_find_put by (auto; apply (is_part_ppos n); auto). destruct (pdec k l) as [->|]; [destruct Hl; left; auto|auto].
Qed.

Lemma mult_nonneg n t : type_of n t -> (forall p, In p t -> 0 <= snd p) -> forall l, 0 <= mult t l.
Proof. intros _ H l. induction t as [|(k, m) t IH]; cbn [mult]; [lia|]. destruct (list_eq_dec Z.eq_dec k l); [apply (H (k, m)); left; auto|apply IH; intros; apply H; right; auto]. Qed.
Lemma in_mult n t l m : type_of n t -> In (l, m) t -> mult t l = m.
Proof. intros T H. apply type_nodup in T. induction t as [|(k, c) t IH]; [destruct H|]. cbn [map fst] in T. inversion T as [|? ? T1 T2]; subst. cbn [mult]. destruct H as [E|H]; [injection E as -> ->; destruct (list_eq_dec Z.eq_dec l l); [auto|contradiction]|].
  destruct (list_eq_dec Z.eq_dec k l) as [->|]; [destruct T1; apply (in_map fst) in H; exact H|auto]. Qed.
Lemma sw_inv n x y fill W y' : type_of n x -> type_of n y -> (forall p, In p x -> 0 <= snd p) -> (forall p, In p y -> 0 <= snd p) -> sw_types x y fill = Ret (W, y') ->
  (forall l, In l (map fst x) -> sw_get W l = Ret (W2 (mkMat (mult x l) (mult y l) (fill l)))) /\ (forall m l, is_part m l -> ~ In l (map fst x) -> sw_get W l = Abort) /\
  type_of n y' /\ (forall l, mult y' l = mult y l) /\ (forall l, In l (map fst y') <-> In l (map fst x) \/ In l (map fst y)).
Proof.
  intros Tx Ty Hx Hy E. destruct (types_fold n fill x [] y) as (W1' & y1 & E1 & T1 & M1 & I1 & G1 & G2); auto.
  { apply (type_nodup n); auto. } { apply Tx. } { apply (mult_nonneg n); auto. } { constructor. }
  unfold sw_types in E. rewrite E1 in E. apply Ret_inj in E. injection E as -> ->. unfold sw_get. split.
  - intros l H. apply in_map_iff in H as ((k, m) & Q & H). cbn in Q. subst k. specialize (G1 _ H). cbn [fst snd] in G1. rewrite G1, (in_mult n x l m) by auto. reflexivity.
  - split; [|auto]. intros m l P H. rewrite G2; [reflexivity|apply (is_part_ppos m); auto|auto].
Qed.

Theorem weights_of_types n x y fill : type_of n x -> type_of n y -> (forall p, In p x -> 0 <= snd p) -> (forall p, In p y -> 0 <= snd p) ->
  exists W y', sw_types x y fill = Ret (W, y') /\ (forall l, In l (map fst x) -> exists M, sw_get W l = Ret (W2 M) /\ m_n0 M = mult x l /\ m_n1 M = mult y l /\ forall i j, m_at M i j = fill l i j) /\
    (forall m l, is_part m l -> ~ In l (map fst x) -> sw_get W l = Abort) /\ type_of n y' /\ (forall l, mult y' l = mult y l) /\ (forall l, In l (map fst y') <-> In l (map fst x) \/ In l (map fst y)).
Proof.
  intros Tx Ty Hx Hy. destruct (types_fold n fill x [] y) as (W & y' & E & _); auto.
  { apply (type_nodup n); auto. } { apply Tx. } { apply (mult_nonneg n); auto. } { constructor. }
  exists W, y'. destruct (sw_inv n x y fill W y' Tx Ty Hx Hy E) as (A & B & C). split; [exact E|]. split; [|auto]. intros l H. rewrite (A l H). eexists. split; [reflexivity|]. cbn. auto.
Qed.

Lemma mult_notin t l : ~ In l (map fst t) -> mult t l = 0.
Proof. induction t as [|(k, m) t IH]; cbn; [auto|]. intros H. destruct (list_eq_dec Z.eq_dec k l); [tauto|apply IH; tauto]. Qed.

(* ---- the product ---- *)
Lemma Forall2_nth_r {A B} (R : A -> B -> Prop) l l' k y : Forall2 R l l' -> nth_error l' k = Some y -> exists x, nth_error l k = Some x /\ R x y.
Proof. intros F. revert k. induction F as [|a b l l' H F IH]; intros [|k] E; cbn in *; try discriminate; [injection E as <-; eauto|auto]. Qed.
Lemma mul_fold W fill c v : (forall P, In P v -> sw_get W (io_lambda (sp_irr P)) = Ret (W2 (mkMat (c (io_lambda (sp_irr P))) (m_n1 (sp_mat P)) (fill (io_lambda (sp_irr P)))))) ->
  exists R, sw_mul W v = Ret R /\ Forall2 (mixed fill c) v R.
Proof.
  intros H. unfold sw_mul.
  match goal with |- context [foldM ?f v []] => assert (forall acc, exists R, foldM f v acc = Ret (acc ++ R) /\ Forall2 (mixed fill c) v R) as K; [|apply (K [])] end.
  induction v as [|P v IH]; intros acc; cbn [foldM]; [exists []; rewrite app_nil_r; split; constructor|].
  rewrite (H P (or_introl eq_refl)). cbn [bind]. unfold mat_mul at 1. cbn [mtransp m_n0 m_n1 m_at]. rewrite Z.eqb_refl. cbn [bind].
  destruct (IH (fun X HX => H X (or_intror HX)) (acc ++ [mkSpart (sp_irr P) (mkMat (m_n0 (sp_mat P)) (c (io_lambda (sp_irr P))) (fun i j => acc_sum (m_n1 (sp_mat P)) (fun k => (m_at (sp_mat P) i k * fill (io_lambda (sp_irr P)) j k)%R)))])) as (R & E & F).
  eexists (_ :: R). rewrite E, <- app_assoc. split; [reflexivity|]. constructor; [|auto]. split; [reflexivity|]. split; [reflexivity|]. split; [reflexivity|]. intros i j. cbn [sp_mat m_at]. apply acc_sum_rsum.
Qed.

Section P.
  Variables (n : Z) (x y : list (list Z * Z)) (fill : list Z -> Z -> Z -> R) (W : weights) (y' : list (list Z * Z)).
  Hypotheses (Hn : 1 <= n) (Tx : type_of n x) (Ty : type_of n y) (Hx : forall p, In p x -> 0 <= snd p) (Hy : forall p, In p y -> 0 <= snd p) (EW : sw_types x y fill = Ret (W, y')).

  Lemma key_of v P : vec_of y v -> In P v -> exists m, In (key P, m) y /\ m_n1 (sp_mat P) = m /\ is_part n (key P).
  Proof. intros V HP. destruct (vec_parts n y v Hn (tau_parts n y Ty) V P HP) as (l & m & I & Pl & K). destruct (part_pgood n l m P Pl Hn K) as (_ & K2 & K3). subst. exists (m_n1 (sp_mat P)). auto. Qed.

  Lemma mul_ok v : (forall l, In l (map fst y) -> In l (map fst x)) -> vec_of y v -> exists R, sw_mul W v = Ret R /\ Forall2 (mixed fill (mult x)) v R.
  Proof.
    intros S V. apply mul_fold. intros P HP. destruct (key_of v P V HP) as (m & I & E & Pl). destruct (sw_inv n x y fill W y' Tx Ty Hx Hy EW) as (G & _). fold (key P). rewrite G by (apply S; apply (in_map fst) in I; exact I). rewrite (in_mult n y _ _ Ty I), E. reflexivity.
  Qed.

  Lemma mixed_vec v R : Forall2 (mixed fill (mult x)) v R -> vec_of y v -> vec_of (map (fun p => (fst p, mult x (fst p))) y) R.
  Proof.
    intros F V. assert (forall t, (forall p, In p t -> is_part n (fst p)) -> vec_of t v -> vec_of (map (fun p => (fst p, mult x (fst p))) t) R) as K; [|apply K; auto; apply (tau_parts n); auto].
    clear V. induction F as [|P Q v R (A1 & A2 & A3 & _) F IH]; intros t Pt V; inversion V as [|(l, m) ? t' ? V1 V2]; subst; cbn [map]; constructor; [|apply IH; auto; intros; apply Pt; right; auto].
    cbn [fst snd] in *. destruct (part_pgood n l m P (Pt _ (or_introl eq_refl)) Hn V1) as (_ & KP & _). destruct V1 as (B1 & B2 & B3 & B4). unfold key in KP. rewrite KP in A3. split; [congruence|]. split; [congruence|]. split; [auto|apply (mult_nonneg n); auto].
  Qed.

  Lemma mixed_moved p P Q P' Q' : mixed fill (mult x) P Q -> vmoved n p P P' -> mixed fill (mult x) P' Q' -> vmoved n p Q Q'.
  Proof.
    intros (A1 & A2 & A3 & A4) (B1 & B2 & B3 & B4) (C1 & C2 & C3 & C4). assert (key Q = key P) as KQ by (unfold key; congruence). assert (key P' = key P) as KP by (unfold key; congruence). fold (key P) in *. fold (key P') in *. rewrite KP in *.
    split; [congruence|]. split; [congruence|]. split; [congruence|]. intros i j Hi Hj. rewrite C4, B3. unfold mprod. rewrite KQ.
    rewrite (rsum_ext _ _ (fun k => rsum (io_d (mkirr n (key P))) (fun s => (rr n (key P) p i s * m_at (sp_mat P) s k * fill (key P) j k)%R))).
    - rewrite rsum_swap. apply rsum_ext. intros s _. rewrite A4, !rsum_lsum, <- lsum_scal. apply lsum_ext. intros; ring.
    - intros k Hk. rewrite B4 by (try congruence; lia). unfold mprod. rewrite !rsum_lsum, <- lsum_scal_r. apply lsum_ext. intros; ring.
  Qed.

  Theorem mul_commutes p v : (forall l, In l (map fst y) -> In l (map fst x)) -> vec_of y v -> is_perm n p ->
    exists R v' R' R2, sw_mul W v = Ret R /\ sv_apply p v = Ret v' /\ sw_mul W v' = Ret R' /\ sv_apply p R = Ret R2 /\ Forall2 same_part R' R2.
  Proof.
    intros S V Hp. pose proof (tau_parts n y Ty) as Tp. destruct (mul_ok v S V) as (R & ER & FR). destruct (apply_pure n p v Hn Hp (vec_pgood n y v Hn Tp V)) as (v' & Ev & Fv). pose proof (vmoved_vec n p y v v' Hn Tp V Fv) as V'.
    destruct (mul_ok v' S V') as (R' & ER' & FR'). pose proof (mixed_vec v R FR V) as VR. destruct (apply_pure n p R Hn Hp) as (R2 & E2 & F2).
    { apply (vec_pgood n _ R Hn) with (2 := VR). intros q Hq. apply in_map_iff in Hq as (r & <- & Hr). cbn. auto. }
    exists R, v', R', R2. do 4 (split; [auto|]).
    assert (Forall2 (vmoved n p) R R') as FF.
    { clear - FR Fv FR'. revert v' R' Fv FR'. induction FR as [|P Q v R M F IH]; intros v' R' Fv FR'; inversion Fv; subst; inversion FR'; subst; constructor; [|eapply IH; eauto]. eapply mixed_moved; eauto. }
    apply (Forall2_comp (vmoved n p) (vmoved n p) same_part R); auto. intros a b c _ A B. apply (vmoved_same n p a); auto.
  Qed.

  Theorem mul_add v w s : (forall l, In l (map fst y) -> In l (map fst x)) -> vec_of y v -> vec_of y w -> sv_add v w = Ret s ->
    exists Rv Rw Rs R, sw_mul W v = Ret Rv /\ sw_mul W w = Ret Rw /\ sw_mul W s = Ret Rs /\ sv_add Rv Rw = Ret R /\ Forall2 same_part Rs R.
  Proof.
    intros S V Y Es. destruct (add_vec n y v w Hn Ty V Y) as (s' & Es' & Vs & As). rewrite Es in Es'. apply Ret_inj in Es'. subst s'.
    destruct (mul_ok v S V) as (Rv & Ev & Fv). destruct (mul_ok w S Y) as (Rw & Ew & Fw). destruct (mul_ok s S Vs) as (Rs & Ess & Fs).
    pose proof (mixed_vec v Rv Fv V) as Vv. pose proof (mixed_vec w Rw Fw Y) as Vw. pose proof (mixed_vec s Rs Fs Vs) as Vss.
    assert (type_of n (map (fun p => (fst p, mult x (fst p))) y)) as T'. { unfold type_of. rewrite map_map. cbn. exact Ty. }
    destruct (add_vec n _ Rv Rw Hn T' Vv Vw) as (R & ER & VR & AR). exists Rv, Rw, Rs, R. do 4 (split; [auto|]).
    assert (forall k A, nth_error Rs k = Some A -> exists B, nth_error R k = Some B /\ same_part A B) as N.
    { intros k A EA. destruct (Forall2_nth_r _ _ _ _ _ Fs EA) as (S0 & E0 & M0).
      assert (exists P, nth_error v k = Some P) as (P & EP). { destruct (nth_error v k) eqn:E; eauto. apply nth_error_None in E. assert (nth_error s k <> None) as C by congruence. apply nth_error_Some in C. pose proof (Forall2_len _ _ _ V). pose proof (Forall2_len _ _ _ Vs). lia. }
      assert (exists Q, nth_error w k = Some Q) as (Q & EQ). { destruct (nth_error w k) eqn:E; eauto. apply nth_error_None in E. assert (nth_error s k <> None) as C by congruence. apply nth_error_Some in C. pose proof (Forall2_len _ _ _ Y). pose proof (Forall2_len _ _ _ Vs). lia. }
      destruct (As k P Q EP EQ) as (S1 & ES1 & I1 & A1). rewrite E0 in ES1. injection ES1 as <-.
      destruct (Forall2_nth_l _ _ _ _ _ Fv EP) as (P' & EP' & (MP1 & MP2 & MP3 & MP4)). destruct (Forall2_nth_l _ _ _ _ _ Fw EQ) as (Q' & EQ' & (MQ1 & MQ2 & MQ3 & MQ4)). destruct (AR k P' Q' EP' EQ') as (B & EB & BI & BA). exists B. split; [auto|].
      destruct (Forall2_nth_r _ _ _ _ _ Vs E0) as (t & Et & K0). destruct (Forall2_nth_l _ _ _ _ _ V Et) as (P0 & EP0 & KP). rewrite EP in EP0. injection EP0 as <-. destruct (Forall2_nth_l _ _ _ _ _ Y Et) as (Q0 & EQ0 & KQ). rewrite EQ in EQ0. injection EQ0 as <-.
      destruct (Forall2_nth_r _ _ _ _ _ VR EB) as (t' & Et' & KB). rewrite nth_error_map, Et in Et'. cbn in Et'. injection Et' as <-. destruct K0 as (K1 & K2 & K3 & K4), KP as (P1 & P2 & P3 & P4), KQ as (Q1 & Q2 & Q3 & Q4), KB as (B1 & B2 & B3 & B4). cbn [fst snd] in *. destruct M0 as (M1 & M2 & M3 & M4).
      assert (sp_irr S0 = sp_irr Q) as EI by congruence. assert (sp_irr P = sp_irr Q) as EI2 by congruence.
      assert (io_lambda (sp_irr S0) = fst t) as KS. { destruct (part_pgood n (fst t) (snd t) S0 (tau_parts n y Ty t (nth_error_In _ _ Et)) Hn) as (_ & H & _); [split; auto|exact H]. }
      split; [congruence|]. split; [congruence|]. split; [congruence|]. intros i j Hi Hj. rewrite BA, M4, MP4, MQ4, K3, P3, Q3, <- EI, <- I1, !rsum_lsum, <- lsum_plus. apply lsum_ext. intros q _. rewrite A1. ring. }
    assert (length Rs = length R) as L by (rewrite <- (Forall2_len _ _ _ Vss), <- (Forall2_len _ _ _ VR); auto). clear - N L. revert R N L. induction Rs as [|A sp IH]; intros [|B w] N L; try discriminate; constructor.
    - destruct (N 0%nat A eq_refl) as (B' & E & S). cbn in E. injection E as <-. auto.
    - apply IH; [|cbn in L; lia]. intros k X E. apply (N (S k) X E).
  Qed.

  Theorem mul_missing v : (exists l, In l (map fst y) /\ ~ In l (map fst x)) -> vec_of y v -> sw_mul W v = Abort.
  Proof.
    intros (l & Hl & Nl) V. destruct (sw_inv n x y fill W y' Tx Ty Hx Hy EW) as (G & A & _).
    assert (exists P, In P v /\ key P = l) as (P & HP & KP). { apply in_map_iff in Hl as ((k, m) & E & I). cbn in E. subst k. destruct (In_nth_error _ _ I) as (i & Ei). destruct (Forall2_nth_l _ _ _ _ _ V Ei) as (P & EP & K). exists P. split; [eapply nth_error_In; eauto|]. apply (part_pgood n l m P (tau_parts n y Ty _ I) Hn K). }
    assert (forall Q, In Q v -> sw_get W (key Q) = Abort \/ exists c, sw_get W (key Q) = Ret (W2 (mkMat c (m_n1 (sp_mat Q)) (fill (key Q))))) as D.
    { intros Q HQ. destruct (key_of v Q V HQ) as (m & I & E & Pl). destruct (in_dec pdec (key Q) (map fst x)) as [J|J]; [right|left; apply (A n); auto]. exists (mult x (key Q)). rewrite G by auto. rewrite (in_mult n y _ _ Ty I), E. reflexivity. }
    assert (sw_get W (key P) = Abort) as AP. { destruct (key_of v P V HP) as (m & I & E & Pl). apply (A n); [auto|congruence]. }
    clear - D HP AP. unfold sw_mul. match goal with |- foldM ?f v [] = _ => assert (forall acc, foldM f v acc = Abort) as K; [|apply K] end. induction v as [|Q v IH]; intros acc; [destruct HP|]. cbn [foldM]. fold (key Q). destruct (D Q (or_introl eq_refl)) as [E|(c & E)]; rewrite E; [reflexivity|]. cbn [bind].
    destruct HP as [->|HP]; [congruence|]. unfold mat_mul at 1. cbn [mtransp m_n0 m_n1]. rewrite Z.eqb_refl. cbn [bind]. apply IH; auto. intros X HX. apply D. right; auto.
  Qed.
End P.

Theorem mul_identity n x v W y' : 1 <= n -> type_of n x -> (forall p, In p x -> 0 <= snd p) -> sw_types x x (fun _ i j => delta i j) = Ret (W, y') -> vec_of x v -> y' = x /\ exists R, sw_mul W v = Ret R /\ Forall2 same_part R v.
Proof.
  intros Hn Tx Hx EW V. split.
  { destruct (sw_inv n x x _ W y' Tx Tx Hx Hx EW) as (_ & _ & T & M & I). apply (type_determined n); auto. intros l. rewrite I. tauto. }
  destruct (mul_ok n x x _ W y' Hn Tx Tx Hx Hx EW v (fun _ H => H) V) as (R & ER & FR). exists R. split; [auto|].
  assert (forall P, In P v -> m_n1 (sp_mat P) = mult x (io_lambda (sp_irr P))) as K. { intros P HP. destruct (key_of n x Hn Tx v P V HP) as (m & I & E & _). rewrite E. symmetry. apply (in_mult n x); auto. }
  clear - FR K. induction FR as [|P Q v R (A1 & A2 & A3 & A4) F IH]; constructor; [|apply IH; intros; apply K; right; auto]. pose proof (K P (or_introl eq_refl)) as KP.
  split; [auto|]. split; [auto|]. split; [congruence|]. intros i j Hi Hj. rewrite A4. rewrite (rsum_ext _ _ (fun k => (delta j k * m_at (sp_mat P) i k)%R)) by (intros; ring). apply rsum_delta_l. lia.
Qed.

(* one after the other *)
Theorem mul_twice n x y z f g U1 y1 U2 z1 U3 z2 v : 1 <= n -> type_of n x -> type_of n y -> type_of n z -> (forall p, In p x -> 0 <= snd p) -> (forall p, In p y -> 0 <= snd p) -> (forall p, In p z -> 0 <= snd p) ->
  map fst x = map fst y -> map fst y = map fst z ->
  sw_types x y f = Ret (U1, y1) -> sw_types y z g = Ret (U2, z1) -> sw_types x z (fun l i j => rsum (mult y l) (fun k => f l i k * g l k j)%R) = Ret (U3, z2) -> vec_of z v ->
  exists u R R', sw_mul U2 v = Ret u /\ sw_mul U1 u = Ret R /\ sw_mul U3 v = Ret R' /\ Forall2 same_part R R'.
Proof.
  intros Hn Tx Ty Tz Hx Hy Hz Kx Ky E1 E2 E3 V.
  destruct (mul_ok n y z g U2 z1 Hn Ty Tz Hy Hz E2 v) as (u & Eu & Fu); [intros l; rewrite Ky; auto|auto|].
  pose proof (mixed_vec n y z g Hn Ty Tz Hy v u Fu V) as Vu.
  assert (map (fun p => (fst p, mult y (fst p))) z = y) as EY.
  { apply (type_determined n); auto.
    - unfold type_of. rewrite map_map. exact Tz.
    - intros l. rewrite map_map. cbn [fst]. rewrite Ky. tauto.
    - intros l. destruct (in_dec pdec l (map fst y)) as [I|I].
      + rewrite Ky in I. apply in_map_iff in I as (p & <- & I). apply (in_mult n); [unfold type_of; rewrite map_map; exact Tz|]. apply (in_map (fun p => (fst p, mult y (fst p)))) in I. exact I.
      + rewrite (mult_notin y) by auto. apply mult_notin. rewrite map_map. cbn [fst]. rewrite Ky in I. exact I. }
  rewrite EY in Vu.
  destruct (mul_ok n x y f U1 y1 Hn Tx Ty Hx Hy E1 u) as (R & ER & FR); [intros l; rewrite Kx; auto|auto|].
  destruct (mul_ok n x z _ U3 z2 Hn Tx Tz Hx Hz E3 v) as (R' & ER' & FR'); [intros l; rewrite Kx, Ky; auto|auto|].
  exists u, R, R'. do 3 (split; [auto|]). clear - Fu FR FR'. revert u R R' Fu FR FR'. induction v as [|P v IH]; intros u R R' Fu FR FR'; inversion Fu as [|? U ? u' (A1 & A2 & A3 & A4)]; subst; inversion FR as [|? Q ? R1 (B1 & B2 & B3 & B4)]; subst; inversion FR' as [|? Q' ? R1' (C1 & C2 & C3 & C4)]; subst; constructor; [|eapply IH; eauto].
  split; [congruence|]. split; [congruence|]. split; [congruence|]. intros i j _ _. rewrite B4, C4, A1, A3.
  rewrite (rsum_ext _ _ (fun k => rsum (m_n1 (sp_mat P)) (fun s => (m_at (sp_mat P) i s * g (io_lambda (sp_irr P)) k s * f (io_lambda (sp_irr P)) j k)%R))).
  - rewrite rsum_swap. apply rsum_ext. intros s _. rewrite !rsum_lsum, <- lsum_scal. apply lsum_ext. intros; ring.
  - intros k _. rewrite A4, !rsum_lsum, <- lsum_scal_r. apply lsum_ext. intros; ring.
Qed.

(* ---- weights from vectors ---- *)
Lemma um_find_put_any {V} (m : list (list Z * V)) k v l w : um_find (um_put m k v) l = Some w -> w = v \/ um_find m l = Some w.
Proof.
  induction m as [|(x, u) m IH]; cbn [um_put um_find].
  - destruct (ip_eq k l); [intros H; injection H; auto|discriminate].
  - destruct (ip_eq x k); cbn [um_find]; destruct (ip_eq x l); auto. intros H; injection H; auto.
Qed.
Lemma vecs_only x y W : sw_vecs x y = Ret W -> forall l, um_find W l = None \/ exists k, um_find W l = Some (W1 k).
Proof.
  intros E. unfold sw_vecs in E. destruct (zlen x =? zlen y) eqn:L; [|discriminate]. cbn [assert_ bind] in E.
  assert (forall l w, um_find W l = Some w -> exists k, w = W1 k) as Q; [|intros l; destruct (um_find W l) as [w|] eqn:F; [destruct (Q _ _ F) as (k & ->); eauto|auto]].
  revert E. unfold zfor. generalize (zrange 0 (zlen x)). intros is. assert (forall l w, um_find (@nil (list Z * wten)) l = Some w -> exists k, w = W1 k) as Q0 by (intros; discriminate). revert Q0. generalize (@nil (list Z * wten)). induction is as [|i is IH]; intros W0 Q0 E; cbn [foldM] in E; [apply Ret_inj in E; subst; auto|].
  destruct (rd x i) as [P| | |]; cbn [bind] in E; try discriminate. destruct (rd y i) as [P'| | |]; cbn [bind] in E; try discriminate. destruct (ip_eq (io_lambda (sp_irr P)) (io_lambda (sp_irr P'))); cbn [assert_ bind] in E; try discriminate.
  refine (IH _ _ E). intros l w H. apply um_find_put_any in H as [->|H]; eauto.
Qed.
Lemma um_find_put_some {V} (m : list (list Z * V)) k v l : ip_eq k l = true -> um_find (um_put m k v) l <> None.
Proof.
  intros H. induction m as [|(x, u) m IH]; cbn [um_put um_find]; [rewrite H; discriminate|]. destruct (ip_eq x k) eqn:E; cbn [um_find].
  - assert (ip_eq x l = true) as ->; [|discriminate]. rewrite ip_eq_rows in *. intros i Hi. rewrite E; auto.
  - destruct (ip_eq x l); [discriminate|auto].
Qed.
Lemma um_find_keep {V} (m : list (list Z * V)) k v l : um_find m l <> None -> um_find (um_put m k v) l <> None.
Proof. intros H. induction m as [|(x, u) m IH]; cbn [um_put um_find] in *; [congruence|]. destruct (ip_eq x k); cbn [um_find]; destruct (ip_eq x l); try discriminate; auto. Qed.
Theorem vecs_undefined x y : Forall2 (fun P Q => io_lambda (sp_irr P) = io_lambda (sp_irr Q)) x y -> y <> [] -> exists W, sw_vecs x y = Ret W /\ sw_mul W y = UB.
Proof.
  intros F Ny. pose proof (Forall2_len _ _ _ F) as L.
  destruct (zfor_inv (fun i W => forall j P, 0 <= j < i -> nth_error x (Z.to_nat j) = Some P -> um_find W (io_lambda (sp_irr P)) <> None) 0 (zlen x) (fun i W =>
    P <- rd x i ;; Q <- rd y i ;; _ <- assert_ (ip_eq (io_lambda (sp_irr P)) (io_lambda (sp_irr Q))) ;;
    Ret (um_put W (io_lambda (sp_irr P)) (W1 (m_n1 (sp_mat P) * m_n1 (sp_mat Q))))) []) as (W & E & H).
  - apply zlen_nonneg.
  - intros j P Hj. lia.
  - intros i W Hi HW. assert (exists P, nth_error x (Z.to_nat i) = Some P) as (P & EP). { destruct (nth_error x (Z.to_nat i)) eqn:E; eauto. apply nth_error_None in E. unfold zlen in Hi. lia. }
    destruct (Forall2_nth_l _ _ _ _ _ F EP) as (Q & EQ & K).
    destruct (nth_error_split _ _ EP) as (xa & xb & Ex & Lx). destruct (nth_error_split _ _ EQ) as (ya & yb & Ey & Ly).
    assert (rd x i = Ret P) as -> by (rewrite Ex; apply rd_at'; unfold zlen; lia). assert (rd y i = Ret Q) as -> by (rewrite Ey; apply rd_at'; unfold zlen; lia). cbn [bind]. rewrite K. assert (forall l, ip_eq l l = true) as Rf by (intros; apply ip_eq_rows; auto). rewrite Rf. cbn [assert_ bind]. eexists. split; [reflexivity|].
    intros j P' Hj EP'. destruct (Z.eq_dec j i) as [->|Nj]; [|apply um_find_keep; apply (HW j); auto; lia]. rewrite EP in EP'. injection EP' as <-. apply um_find_put_some. rewrite K. apply Rf.
  - exists W. assert (sw_vecs x y = Ret W) as EW. { unfold sw_vecs. replace (zlen x =? zlen y) with true by (unfold zlen; symmetry; apply Z.eqb_eq; lia). exact E. } split; [exact EW|].
    destruct y as [|Q y]; [congruence|]. destruct x as [|P x]; [discriminate|]. inversion F as [|? ? ? ? K F']; subst. specialize (H 0 P ltac:(rewrite zlen_cons; pose proof (zlen_nonneg x); lia) eq_refl). rewrite K in H.
    destruct (vecs_only _ _ _ EW (io_lambda (sp_irr Q))) as [N|(k & Ek)]; [congruence|]. unfold sw_mul. cbn [foldM]. unfold sw_get at 1. rewrite Ek. reflexivity.
Qed.

(* ---- ownership ---- *)
Lemma wo_spec keys : forall m h, NoDup keys -> Forall ppos keys -> Forall ppos (map fst m) -> (forall k, In k keys -> ~ In k (map fst m)) ->
  exists new, fold_left (fun st k => (um_put (fst st) k (To (zlen (snd st))), snd st ++ [true])) keys (m, h) = (m ++ new, h ++ repeat true (length keys)) /\
    map fst new = keys /\ map snd new = map To (zrange (zlen h) (zlen h + zlen keys)).
Proof.
  induction keys as [|k keys IH]; intros m h N P Pm D; cbn [fold_left].
  - exists []. cbn [length repeat]. rewrite !app_nil_r. split; [auto|]. split; [auto|]. change (zlen []) with 0. rewrite Z.add_0_r, zrange_nil by lia. reflexivity.
  - inversion N as [|? ? N1 N2]; subst. inversion P as [|? ? P1 P2]; subst. cbn [fst snd].
    assert (um_put m k (To (zlen h)) = m ++ [(k, To (zlen h))]) as ->.
    { assert (~ In k (map fst m)) as D' by (apply D; left; auto). clear - Pm D' P1. induction m as [|(x, w) m IH]; cbn [um_put]; [auto|]. cbn [map fst] in *. inversion Pm; subst. destruct (ip_eq x k) eqn:E; [apply ip_eq_pos in E; auto; subst; destruct D'; left; auto|]. cbn. rewrite IH; auto. intros X; apply D'; right; auto. }
    destruct (IH (m ++ [(k, To (zlen h))]) (h ++ [true])) as (new & E & K & S); auto.
    { rewrite map_app. apply Forall_app. split; [auto|]. constructor; auto. }
    { intros j Hj. rewrite map_app, in_app_iff. cbn. intros [X|[X|[]]]; [apply (D j); [right; auto|auto]|subst; auto]. }
    exists ((k, To (zlen h)) :: new). rewrite E. split; [|split].
    + rewrite <- !app_assoc. cbn. reflexivity.
    + cbn. rewrite K. auto.
    + cbn [map snd]. rewrite S. rewrite zlen_app. change (zlen [true]) with 1. rewrite (zrange_cons (zlen h)) by (rewrite zlen_cons; pose proof (zlen_nonneg keys); lia). cbn [map]. do 2 f_equal. rewrite zlen_cons. f_equal; lia.
Qed.

Lemma delete_all : forall k (a b : list bool), foldM (fun p h => lf_delete p h) (map To (zrange (zlen a) (zlen a + Z.of_nat k))) (a ++ repeat true k ++ b) = Ret (a ++ repeat false k ++ b).
Proof.
  induction k as [|k IH]; intros a b.
  - rewrite zrange_nil by lia. reflexivity.
  - rewrite zrange_cons by lia. cbn [map foldM repeat app]. unfold lf_delete at 1. rewrite (rd_at' a true _ _ eq_refl). cbn [bind]. rewrite (wr_at' a true _ false _ eq_refl). cbn [bind].
    replace (zlen a + Z.of_nat (S k)) with (zlen (a ++ [false]) + Z.of_nat k) by (rewrite zlen_app; change (zlen [false]) with 1; lia). replace (zlen a + 1) with (zlen (a ++ [false])) by (rewrite zlen_app; reflexivity).
    specialize (IH (a ++ [false]) b). rewrite <- !app_assoc in IH. exact IH.
Qed.

Theorem own_once n x h : type_of n x -> exists w h', wo_new (map fst x) h = (w, h') /\ wo_dtor w h' = Ret (h ++ repeat false (length x)).
Proof.
  intros T. destruct (wo_spec (map fst x) [] h) as (new & E & K & S).
  { apply (type_nodup n); auto. } { destruct T as (_ & F). eapply Forall_impl; [|exact F]. intros l H. apply (is_part_ppos n); auto. } { constructor. } { intros k _ []. }
  exists new, (h ++ repeat true (length x)). unfold wo_new. rewrite E, map_length. split; [reflexivity|]. unfold wo_dtor. rewrite <- (foldM_mapp snd (fun p h => lf_delete p h)), S, zlen_map.
  pose proof (delete_all (length x) h []) as D. rewrite !app_nil_r in D. exact D.
Qed.
Theorem copied_twice n x h : type_of n x -> x <> [] -> forall w h' h2, wo_new (map fst x) h = (w, h') -> wo_dtor (wo_copy w) h' = Ret h2 -> wo_dtor w h2 = UB.
Proof.
  intros T Nx w h' h2 E D. destruct (wo_spec (map fst x) [] h) as (new & E' & K & S).
  { apply (type_nodup n); auto. } { destruct T as (_ & F). eapply Forall_impl; [|exact F]. intros l H. apply (is_part_ppos n); auto. } { constructor. } { intros k _ []. }
  unfold wo_new in E. rewrite E' in E. cbn [app] in E. injection E as <- <-. destruct (own_once n x h T) as (w1 & h1 & E1 & D1). unfold wo_new in E1. rewrite E' in E1. cbn [app] in E1. injection E1 as <- <-. unfold wo_copy in D. rewrite D1 in D. apply Ret_inj in D. subst h2.
  unfold wo_dtor. rewrite <- (foldM_mapp snd (fun p h => lf_delete p h)), S. destruct x as [|p x]; [congruence|]. rewrite zrange_cons by (cbn [map]; rewrite zlen_cons; pose proof (zlen_nonneg (map fst x)); lia). cbn [map foldM length repeat]. unfold lf_delete at 1. rewrite (rd_at' h false _ _ eq_refl). reflexivity.
Qed.

(* ---- transpositions ---- *)
Theorem apply_transp_vec n tau v a b : 1 <= n -> type_of n tau -> vec_of tau v -> 1 <= a <= n -> 1 <= b <= n ->
  exists c v1 v2, p_transposition n a b = Ret c /\ sv_apply_transp (mkTransp a b) v = Ret v1 /\ sv_apply c v = Ret v2 /\ Forall2 same_part v1 v2.
Proof.
  intros Hn T V Ha Hb. pose proof (vec_pgood n tau v Hn (tau_parts n tau T) V) as Vg. pose proof (is_perm_ptransp n a b Ha Hb) as Hc.
  destruct (apply_pure n _ v Hn Hc Vg) as (v2 & E2 & F2).
  destruct (apply_with n (ptransp n a b) (fun P => act_transp (irr_apply (sp_irr P)) (mkTransp a b) (sp_mat P)) v) as (v1 & E1 & F1).
  { intros Q HQ. split; [auto|]. destruct (Vg Q HQ) as (G1 & G2 & G3 & G4). destruct (mkirr_ok n (key Q) G1 Hn) as (_ & G). rewrite G2. apply (apply_transp_ok n (key Q) _ G); auto. }
  exists (ptransp n a b), v1, v2. split; [apply p_transposition_ok; auto|]. split; [exact E1|]. split; [auto|].
  eapply Forall2_comp; [|exact F1|exact F2]. intros Q A B _. apply vmoved_same.
Qed.

(* ---- the second type ---- *)
Theorem type_changed n x y fill W y' l : type_of n x -> type_of n y -> (forall p, In p x -> 0 <= snd p) -> (forall p, In p y -> 0 <= snd p) -> sw_types x y fill = Ret (W, y') -> In l (map fst x) -> ~ In l (map fst y) -> In (l, 0) y'.
Proof.
  intros Tx Ty Hx Hy E I N. destruct (sw_inv n x y fill W y' Tx Ty Hx Hy E) as (_ & _ & T & M & J). assert (In l (map fst y')) as H by (apply J; auto). apply in_map_iff in H as ((k, m) & Q & H). cbn in Q. subst k.
  pose proof (mult_notin y l N) as Z0.
  rewrite <- (in_mult n y' l m T H), M, Z0 in H. exact H.
Qed.
