(* An orthogonal representation of S_n splits into copies of the irreps, along an orthonormal basis on which the matrices are those of Young's orthogonal form. *)
From Coq Require Import ZArith List Bool Lia Reals Lra Permutation.
From Verif Require Import Model_Base Model_Sn Model_Perm Model_Part Model_Tab Model_Irrep.
From Verif Require Import Spec_Perm Spec_Part Spec_Tab Spec_Rep Spec_Four.
From Verif Require Import Proof_Base Proof_Perm Proof_Sn Proof_SnProps Proof_Part Proof_PartProps Proof_Tab Proof_TabProps Proof_Cycles Proof_Cox Proof_Yor Proof_Sum Proof_Irrep Proof_Rep Proof_Mat Proof_IrrepProps Proof_JM Proof_Conn Proof_Schur Proof_Restr Proof_UpDown Proof_Complete Proof_Char Proof_CharBank Proof_FFTmath Proof_Vec6 Proof_Kron.
Import ListNotations.
Open Scope R_scope.

Lemma rsum_plus' d (f g : Z -> R) : rsum d (fun i => f i + g i) = rsum d f + rsum d g.
Proof. rewrite !rsum_lsum. apply lsum_plus. Qed.
Lemma rsum_minus' d (f g : Z -> R) : rsum d (fun i => f i - g i) = rsum d f - rsum d g.
Proof. rewrite !rsum_lsum. apply lsum_minus. Qed.
Lemma rsum_zero d (f : Z -> R) : (forall i, (0 <= i < d)%Z -> f i = 0) -> rsum d f = 0.
Proof. intros H. rewrite rsum_lsum. apply lsum_0. intros x Hx. apply in_zrange in Hx. auto. Qed.
Lemma lsum_rsum {A} (X : list A) d (f : A -> Z -> R) : lsum X (fun x => rsum d (f x)) = rsum d (fun i => lsum X (fun x => f x i)).
Proof. rewrite rsum_lsum, lsum_swap. apply lsum_ext. intros. rewrite rsum_lsum. auto. Qed.
Lemma delta_refl i : delta i i = 1. Proof. unfold delta. destruct (Z.eq_dec i i); congruence. Qed.
Lemma delta_ne i j : i <> j -> delta i j = 0. Proof. unfold delta. destruct (Z.eq_dec i j); congruence. Qed.
Lemma delta_sym i j : delta i j = delta j i. Proof. unfold delta. destruct (Z.eq_dec i j), (Z.eq_dec j i); congruence. Qed.
Lemma rsum_pick d (f : Z -> R) i : (0 <= i < d)%Z -> (forall j, (0 <= j < d)%Z -> j <> i -> f j = 0) -> rsum d f = f i.
Proof. intros Hi H. rewrite rsum_lsum. apply lsum_single; [apply NoDup_zrange|apply in_zrange; auto|]. intros y Hy. apply in_zrange in Hy. auto. Qed.

(* ---- an orthonormal basis of the image of a symmetric idempotent matrix ---- *)
Section Basis.
  Variable D : Z.

  Definition osym (P : Z -> Z -> R) : Prop := forall a b, (0 <= a < D)%Z -> (0 <= b < D)%Z -> P a b = P b a.
  Definition oidem (P : Z -> Z -> R) : Prop := forall a c, (0 <= a < D)%Z -> (0 <= c < D)%Z -> rsum D (fun b => P a b * P b c) = P a c.

  Lemma rsum_sq_zero (f : Z -> R) : rsum D (fun b => f b * f b) = 0 -> forall b, (0 <= b < D)%Z -> f b = 0.
  Proof.
    intros H b Hb. apply Rsqr_0_uniq. unfold Rsqr. rewrite rsum_lsum in H. assert (In b (zrange 0 D)) as I by (apply in_zrange; auto). revert H I. generalize (zrange 0 D). intros X.
    induction X as [|x X IH]; intros H I; [destruct I|]. rewrite lsum_cons in H. assert (0 <= lsum X (fun b => f b * f b)) by (apply lsum_nonneg; intros; apply Rle_0_sqr). pose proof (Rle_0_sqr (f x)) as Q. unfold Rsqr in Q. destruct I as [<-|I]; [lra|apply IH; [lra|auto]].
  Qed.

  Lemma idem_basis m : forall P, osym P -> oidem P -> rsum D (fun a => P a a) = INR m ->
    exists u : Z -> Z -> R, (forall a a', (0 <= a < Z.of_nat m)%Z -> (0 <= a' < Z.of_nat m)%Z -> rsum D (fun b => u a b * u a' b) = delta a a') /\
      (forall b b', (0 <= b < D)%Z -> (0 <= b' < D)%Z -> P b b' = rsum (Z.of_nat m) (fun a => u a b * u a b')).
  Proof.
    induction m as [|m IH]; intros P S I T.
    - exists (fun _ _ => 0). split; [intros; lia|]. intros b b' Hb Hb'. rewrite (rsum_zero (Z.of_nat 0)) by (intros; lia).
      assert (forall a, (0 <= a < D)%Z -> P a a = rsum D (fun b => P a b * P a b)) as Q. { intros a Ha. rewrite <- (I a a) by auto. apply rsum_ext. intros c Hc. rewrite (S c a) by auto. ring. }
      assert (P b b = 0) as Z0.
      { assert (forall a, (0 <= a < D)%Z -> 0 <= P a a) as NN. { intros a Ha. rewrite Q by auto. rewrite rsum_lsum. apply lsum_nonneg. intros; apply Rle_0_sqr. }
        rewrite rsum_lsum in T. cbn [INR] in T. assert (In b (zrange 0 D)) as Ib by (apply in_zrange; auto). assert (forall a, In a (zrange 0 D) -> 0 <= P a a) as N2 by (intros a Ha; apply in_zrange in Ha; auto). revert T Ib N2. generalize (zrange 0 D). intros X.
        induction X as [|x X IX]; intros T Ib N2; [destruct Ib|]. rewrite lsum_cons in T. assert (0 <= lsum X (fun a => P a a)) by (apply lsum_nonneg; intros; apply N2; right; auto). pose proof (N2 x (or_introl eq_refl)). destruct Ib as [->|Ib]; [lra|apply IX; [lra|auto|intros; apply N2; right; auto]]. }
      rewrite Q in Z0 by auto. apply (rsum_sq_zero (P b)); auto.
    - assert (exists c, (0 <= c < D)%Z /\ P c c <> 0) as (c & Hc & W).
      { destruct (diag_pick (fun a => P a a) (zrange 0 D)) as [Z0|(c & Hc & W)]; [|exists c; apply in_zrange in Hc; auto]. exfalso. rewrite rsum_lsum, lsum_0 in T by auto. rewrite S_INR in T. pose proof (pos_INR m). lra. }
      assert (0 < P c c) as W0. { assert (P c c = rsum D (fun b => P c b * P c b)) as Q. { rewrite <- (I c c) at 1 by auto. apply rsum_ext. intros b Hb. rewrite (S b c) by auto. ring. } assert (0 <= P c c) by (rewrite Q, rsum_lsum; apply lsum_nonneg; intros; apply Rle_0_sqr). lra. }
      set (w := P c c) in *. set (s := sqrt w). assert (s * s = w) as Es by (apply sqrt_sqrt; lra). assert (0 < s) as Hs by (apply sqrt_lt_R0; auto).
      set (v := fun b => P b c / s). set (P1 := fun a b => P a b - v a * v b).
      assert (rsum D (fun b => v b * v b) = 1) as Vn. { transitivity (rsum D (fun b => P c b * P b c) * / w). - rewrite <- rsum_scal_r. apply rsum_ext. intros b Hb. unfold v. rewrite (S c b) by auto. rewrite <- Es. field. lra. - rewrite I by auto. fold w. field. lra. }
      assert (forall a, (0 <= a < D)%Z -> rsum D (fun b => P a b * v b) = v a) as Pv. { intros a Ha. unfold v. rewrite (rsum_ext _ _ (fun b => P a b * P b c * / s)) by (intros; unfold Rdiv; ring). rewrite rsum_scal_r, I by auto. unfold Rdiv. ring. }
      assert (osym P1) as S1 by (intros a b Ha Hb; unfold P1; rewrite (S a b) by auto; ring).
      assert (oidem P1) as I1.
      { intros a d Ha Hd. unfold P1. rewrite (rsum_ext _ _ (fun b => P a b * P b d - (P a b * v b) * v d - v a * (P d b * v b) + v a * v d * (v b * v b))) by (intros b Hb; rewrite (S d b) by auto; ring).
        rewrite rsum_plus', !rsum_minus', rsum_scal_r, !rsum_scal, I, !Pv, Vn by auto. ring. }
      destruct (IH P1 S1 I1) as (u & U1 & U2).
      { unfold P1. rewrite rsum_minus', T, Vn, S_INR. ring. }
      assert (forall a, (0 <= a < Z.of_nat m)%Z -> rsum D (fun b => u a b * v b) = 0) as UV.
      { assert (forall b, (0 <= b < D)%Z -> rsum D (fun b' => P1 b b' * v b') = 0) as P1v. { intros b Hb. unfold P1. rewrite (rsum_ext _ _ (fun b' => P b b' * v b' - v b * (v b' * v b'))) by (intros; ring). rewrite rsum_minus', rsum_scal, Pv, Vn by auto. ring. }
        intros a Ha. assert (rsum D (fun b => v b * rsum D (fun b' => P1 b b' * v b')) = 0) as Z0 by (apply rsum_zero; intros b Hb; rewrite P1v by auto; ring).
        assert (rsum (Z.of_nat m) (fun a => rsum D (fun b => u a b * v b) * rsum D (fun b => u a b * v b)) = 0) as Z1.
        { rewrite <- Z0. rewrite (rsum_ext D _ (fun b => rsum (Z.of_nat m) (fun a => (u a b * v b) * rsum D (fun b' => u a b' * v b')))).
          - rewrite rsum_swap. apply rsum_ext. intros a' _. rewrite rsum_scal_r. auto.
          - intros b Hb. rewrite (rsum_ext D _ (fun b' => rsum (Z.of_nat m) (fun a => u a b * (u a b' * v b')))) by (intros b' Hb'; rewrite U2 by auto; rewrite <- rsum_scal_r; apply rsum_ext; intros; ring). rewrite rsum_swap, <- rsum_scal. apply rsum_ext. intros a' _. rewrite rsum_scal. ring. }
        apply Rsqr_0_uniq. unfold Rsqr. pose proof (rsum_lsum (Z.of_nat m) (fun a => rsum D (fun b => u a b * v b) * rsum D (fun b => u a b * v b))) as EL. rewrite Z1 in EL. symmetry in EL. assert (In a (zrange 0 (Z.of_nat m))) as Ia by (apply in_zrange; auto). revert EL Ia. generalize (zrange 0 (Z.of_nat m)). intros X.
        induction X as [|x X IX]; intros EL Ia; [destruct Ia|]. rewrite lsum_cons in EL. match type of EL with (?q * ?q + ?l = 0) => assert (0 <= l) by (apply lsum_nonneg; intros; apply Rle_0_sqr); pose proof (Rle_0_sqr q) as Qq; unfold Rsqr in Qq end. destruct Ia as [->|Ia]; [lra|apply IX; [lra|auto]]. }
      exists (fun a b => if Z.eq_dec a (Z.of_nat m) then v b else u a b). replace (Z.of_nat (Datatypes.S m)) with (Z.of_nat m + 1)%Z by lia. split.
      + intros a a' Ha Ha'. destruct (Z.eq_dec a (Z.of_nat m)) as [->|Na], (Z.eq_dec a' (Z.of_nat m)) as [->|Na'].
        * rewrite Vn, delta_refl. auto.
        * rewrite delta_ne by auto. rewrite <- (UV a') by lia. apply rsum_ext. intros; ring.
        * rewrite delta_ne by auto. apply UV. lia.
        * apply U1; lia.
      + intros b b' Hb Hb'. rewrite rsum_split by lia. rewrite (rsum_pick 1 _ 0%Z) by (try lia; intros; lia). rewrite Z.add_0_r. destruct (Z.eq_dec (Z.of_nat m) (Z.of_nat m)); [|congruence].
        rewrite (rsum_ext (Z.of_nat m) _ (fun a => u a b * u a b')) by (intros a Ha; destruct (Z.eq_dec a (Z.of_nat m)); [lia|auto]). rewrite <- U2 by auto. unfold P1. ring.
  Qed.

  (* the basis lies in the image *)
  Lemma basis_in m P (u : Z -> Z -> R) : (forall a a', (0 <= a < m)%Z -> (0 <= a' < m)%Z -> rsum D (fun b => u a b * u a' b) = delta a a') -> (forall b b', (0 <= b < D)%Z -> (0 <= b' < D)%Z -> P b b' = rsum m (fun a => u a b * u a b')) ->
    forall a b, (0 <= a < m)%Z -> (0 <= b < D)%Z -> rsum D (fun b' => P b b' * u a b') = u a b.
  Proof.
    intros U1 U2 a b Ha Hb. rewrite (rsum_ext D _ (fun b' => rsum m (fun a' => u a' b * (u a' b' * u a b')))) by (intros b' Hb'; rewrite U2 by auto; rewrite <- rsum_scal_r; apply rsum_ext; intros; ring). rewrite rsum_swap.
    rewrite (rsum_ext m _ (fun a' => u a' b * delta a' a)) by (intros a' Ha'; rewrite rsum_scal, U1 by auto; auto). apply (rsum_delta m (fun a' => u a' b)); auto.
  Qed.
End Basis.

(* square matrices with orthonormal rows have orthonormal columns *)
Lemma square_orth m (A : Z -> Z -> R) : (forall i j, (0 <= i < m)%Z -> (0 <= j < m)%Z -> rsum m (fun k => A i k * A j k) = delta i j) -> forall i j, (0 <= i < m)%Z -> (0 <= j < m)%Z -> rsum m (fun k => A k i * A k j) = delta i j.
Proof.
  intros H i0 j0 Hi0 Hj0. set (P := fun i j => rsum m (fun k => A k i * A k j)). assert (forall i j, (0 <= i < m)%Z -> (0 <= j < m)%Z -> rsum m (fun k => P i k * P k j) = P i j) as I.
  { intros i j Hi Hj. unfold P. transitivity (rsum m (fun k => rsum m (fun e => A k i * A e j * rsum m (fun l => A k l * A e l)))).
    - transitivity (rsum m (fun l => rsum m (fun k => rsum m (fun e => A k i * A e j * (A k l * A e l))))).
      + apply rsum_ext. intros l _. rewrite <- rsum_scal_r. apply rsum_ext. intros k _. rewrite <- rsum_scal. apply rsum_ext. intros; ring.
      + rewrite rsum_swap. apply rsum_ext. intros k _. rewrite rsum_swap. apply rsum_ext. intros e _. rewrite rsum_scal. auto.
    - apply rsum_ext. intros k Hk. rewrite (rsum_ext _ _ (fun e => delta k e * (A k i * A e j))) by (intros e He; rewrite H by auto; ring). apply (rsum_delta_l m (fun e => A k i * A e j)). auto. }
  assert (rsum m (fun i => delta i i - P i i) = 0) as T. { rewrite rsum_minus'. unfold P. rewrite rsum_swap. rewrite <- rsum_minus'. apply rsum_zero. intros i Hi. rewrite H by auto. ring. }
  assert (forall i, (0 <= i < m)%Z -> delta i i - P i i = rsum m (fun k => (delta i k - P i k) * (delta i k - P i k))) as Q.
  { intros i Hi. rewrite (rsum_ext _ _ (fun k => delta i k * delta i k - 2 * (delta i k * P i k) + P i k * P k i)).
    - rewrite rsum_plus', rsum_minus', rsum_scal, (rsum_delta_l m (delta i)), (rsum_delta_l m (P i)), I by auto. ring.
    - intros k Hk. replace (P k i) with (P i k); [ring|]. unfold P. apply rsum_ext. intros; ring. }
  assert (delta i0 i0 - P i0 i0 = 0) as Z0.
  { rewrite rsum_lsum in T. assert (In i0 (zrange 0 m)) as Ii by (apply in_zrange; auto). assert (forall i, In i (zrange 0 m) -> 0 <= delta i i - P i i) as NN by (intros i Hi; apply in_zrange in Hi; rewrite Q, rsum_lsum by auto; apply lsum_nonneg; intros; apply Rle_0_sqr). revert T Ii NN. generalize (zrange 0 m). intros X.
    induction X as [|x X IX]; intros T Ii NN; [destruct Ii|]. rewrite lsum_cons in T. assert (0 <= lsum X (fun i => delta i i - P i i)) by (apply lsum_nonneg; intros; apply NN; right; auto). pose proof (NN x (or_introl eq_refl)). destruct Ii as [->|Ii]; [lra|apply IX; [lra|auto|intros; apply NN; right; auto]]. }
  rewrite Q in Z0 by auto. pose proof (rsum_sq_zero m (fun k => delta i0 k - P i0 k) Z0 j0 Hj0) as E. cbv beta in E. unfold P in E. lra.
Qed.

(* a choice for each member of a list *)
Lemma list_choice {A B} (dec : forall x y : A, {x = y} + {x <> y}) (b0 : B) (Q : A -> B -> Prop) X : (forall x, In x X -> exists b, Q x b) -> exists f, forall x, In x X -> Q x (f x).
Proof.
  induction X as [|x X IH]; intros H; [exists (fun _ => b0); intros x []|]. destruct IH as (f & Hf); [intros; apply H; right; auto|]. destruct (H x (or_introl eq_refl)) as (b & Hb).
  exists (fun y => if dec y x then b else f y). intros y [<-|Hy]; [destruct (dec x x); [auto|congruence]|]. destruct (dec y x) as [->|]; auto.
Qed.

Section Isot.
  Variables (n : Z) (Hn : (1 <= n)%Z) (D : Z) (K : list Z -> Z -> Z -> R) (m : list Z -> Z).
  Let L := all_perms n.
  Let HL : lists_Sn n L.
  Proof. apply all_perms_lists. lia. Qed.
  Hypothesis K_mul : forall p q i j, is_perm n p -> is_perm n q -> (0 <= i < D)%Z -> K (pmul p q) i j = rsum D (fun k => K p i k * K q k j).
  Hypothesis K_id : forall i j, (0 <= i < D)%Z -> K (pid n) i j = delta i j.
  Hypothesis K_inv : forall p i j, is_perm n p -> (0 <= i < D)%Z -> (0 <= j < D)%Z -> K (pinv p) i j = K p j i.
  Hypothesis m_nonneg : forall l, is_part n l -> (0 <= m l)%Z.
  Hypothesis m_trace : forall l, is_part n l -> lsum L (fun p => rsum D (fun b => K p b b) * chi n l p) / IZR (zfact n) = IZR (m l).

  Notation d l := (io_d (mkirr n l)).
  Definition PP (l : list Z) (t s b b' : Z) : R := dimR n l / IZR (zfact n) * lsum L (fun p => rr n l p t s * K p b b').

  Lemma rr_orth l l' i j k e : is_part n l -> is_part n l' -> (0 <= i < d l)%Z -> (0 <= j < d l)%Z -> (0 <= k < d l')%Z -> (0 <= e < d l')%Z ->
    lsum L (fun p => rr n l p i j * rr n l' p k e) = if list_eq_dec Z.eq_dec l l' then delta i k * delta j e * (IZR (zfact n) / dimR n l) else 0.
  Proof.
    intros P P' Hi Hj Hk He. destruct (list_eq_dec Z.eq_dec l l') as [<-|Ne].
    - rewrite (rr_schur n Hn l l) by auto. unfold delta. destruct (Z.eq_dec i k), (Z.eq_dec j e); ring.
    - destruct (mkirr_ok n l P Hn) as (_ & G). destruct (mkirr_ok n l' P' Hn) as (_ & G'). apply (mm_zero n l (mkirr n l) l' (mkirr n l') L Hn G G' HL i j k e); auto. intros (E & _). contradiction.
  Qed.

  Lemma PP_left l q t s b b' : is_part n l -> is_perm n q -> (0 <= t < d l)%Z -> (0 <= b < D)%Z ->
    rsum D (fun e => K q b e * PP l t s e b') = rsum (d l) (fun r => rr n l q r t * PP l r s b b').
  Proof.
    intros P Hq Ht Hb. pose proof (is_perm_pinv n q Hq) as Hq'. unfold PP. set (c := dimR n l / IZR (zfact n)).
    transitivity (c * lsum L (fun p => rr n l p t s * K (pmul q p) b b')).
    - rewrite (rsum_ext D _ (fun e => c * lsum L (fun p => rr n l p t s * (K q b e * K p e b')))) by (intros e He; rewrite Rmult_comm, Rmult_assoc, (Rmult_comm _ (K q b e)), <- lsum_scal; f_equal; apply lsum_ext; intros; ring).
      rewrite rsum_scal. f_equal. rewrite <- lsum_rsum. apply lsum_ext. intros p Hp. apply HL in Hp. rewrite rsum_scal, K_mul by auto. auto.
    - rewrite <- (sum_left n L HL (pinv q)) by auto.
      rewrite (rsum_ext (d l) _ (fun r => c * lsum L (fun p => rr n l q r t * (rr n l p r s * K p b b')))) by (intros r Hr; rewrite (lsum_scal L (rr n l q r t)); ring). rewrite rsum_scal. f_equal. rewrite <- lsum_rsum. apply lsum_ext. intros p Hp. apply HL in Hp.
      rewrite <- (pmul_assoc n), (pmul_pinv_r n), (pmul_pid_l n) by auto. rewrite (rr_mul n Hn) by auto. rewrite <- rsum_scal_r. apply rsum_ext. intros r Hr. rewrite (rr_inv n Hn) by auto. ring.
  Qed.

  Lemma PP_sym l t s b b' : is_part n l -> (0 <= t < d l)%Z -> (0 <= s < d l)%Z -> (0 <= b < D)%Z -> (0 <= b' < D)%Z -> PP l t s b b' = PP l s t b' b.
  Proof.
    intros P Ht Hs Hb Hb'. unfold PP. f_equal. rewrite <- (sum_inv n L HL). apply lsum_ext. intros p Hp. apply HL in Hp. rewrite (rr_inv n Hn), K_inv by auto. auto.
  Qed.

  Lemma PP_mul l l' t s t' s' b b' : is_part n l -> is_part n l' -> (0 <= t < d l)%Z -> (0 <= s < d l)%Z -> (0 <= t' < d l')%Z -> (0 <= s' < d l')%Z -> (0 <= b < D)%Z ->
    rsum D (fun e => PP l t s b e * PP l' t' s' e b') = if list_eq_dec Z.eq_dec l l' then delta s t' * PP l t s' b b' else 0.
  Proof.
    intros P P' Ht Hs Ht' Hs' Hb. pose proof (dimR_pos n l P Hn) as Dp. pose proof (fact_pos n) as Fp. set (c := dimR n l / IZR (zfact n)).
    transitivity (c * lsum L (fun p => rr n l p t s * rsum D (fun e => K p b e * PP l' t' s' e b'))).
    - rewrite (rsum_ext D _ (fun e => c * lsum L (fun p => rr n l p t s * (K p b e * PP l' t' s' e b')))) by (intros e He; unfold PP at 1; fold c; rewrite Rmult_assoc, <- lsum_scal_r; f_equal; apply lsum_ext; intros; ring).
      rewrite rsum_scal. f_equal. rewrite <- lsum_rsum. apply lsum_ext. intros p Hp. rewrite rsum_scal. auto.
    - rewrite (lsum_ext L _ (fun p => rsum (d l') (fun r => rr n l p t s * rr n l' p r t' * PP l' r s' b b'))) by (intros p Hp; apply HL in Hp; rewrite PP_left by auto; rewrite <- rsum_scal; apply rsum_ext; intros; ring).
      rewrite lsum_rsum. rewrite (rsum_ext (d l') _ (fun r => if list_eq_dec Z.eq_dec l l' then delta t r * (delta s t' * / c * PP l' r s' b b') else 0)).
      2:{ intros r Hr. rewrite lsum_scal_r, rr_orth by auto. destruct (list_eq_dec Z.eq_dec l l'); [|ring]. unfold c. field. lra. }
      destruct (list_eq_dec Z.eq_dec l l') as [<-|Ne]; [|rewrite rsum_zero by auto; ring]. rewrite (rsum_delta_l (d l) (fun r => delta s t' * / c * PP l r s' b b')) by auto. unfold c. field. lra.
  Qed.

  Lemma PP_sum b b' : (0 <= b < D)%Z -> (0 <= b' < D)%Z -> lsum (pl n) (fun l => rsum (d l) (fun t => PP l t t b b')) = delta b b'.
  Proof.
    intros Hb Hb'. pose proof (is_perm_pid n ltac:(lia)) as Pi.
    transitivity (lsum L (fun p => (if list_eq_dec Z.eq_dec p (pid n) then 1 else 0) * K p b b')).
    - rewrite (lsum_ext (pl n) _ (fun l => lsum L (fun p => (dimR n l / IZR (zfact n) * rsum (d l) (fun t => rr n l p t t)) * K p b b'))).
      + rewrite lsum_swap. apply lsum_ext. intros p Hp. apply HL in Hp. rewrite lsum_scal_r. f_equal. rewrite <- (inversion_kernel n p (pid n)) by auto. apply lsum_ext. intros l Hl. apply in_pl in Hl; auto. f_equal. apply rsum_ext. intros i Hi.
        rewrite (rsum_ext _ _ (fun j => delta i j * rr n l p i j)) by (intros j Hj; rewrite (rr_id n Hn) by auto; ring). symmetry. apply (rsum_delta_l (d l) (rr n l p i)); auto.
      + intros l Hl. unfold PP. rewrite rsum_scal, <- lsum_rsum, <- lsum_scal. apply lsum_ext. intros p _. rewrite rsum_scal_r. ring.
    - rewrite (lsum_single L (pid n)).
      + destruct (list_eq_dec Z.eq_dec (pid n) (pid n)); [|congruence]. rewrite K_id by auto. ring.
      + apply HL.
      + apply HL. auto.
      + intros y _ Ny. destruct (list_eq_dec Z.eq_dec y (pid n)); [congruence|ring].
  Qed.

  Lemma trK_class : class_fun n (fun p => rsum D (fun b => K p b b)).
  Proof.
    intros g p Hg Hp. pose proof (is_perm_pinv n g Hg) as Hg'. rewrite (rsum_ext D _ (fun b => rsum D (fun c => rsum D (fun e => (K g b c * K g b e) * K p c e)))).
    2:{ intros b Hb. rewrite K_mul by (auto; apply is_perm_pmul; auto). apply rsum_ext. intros c Hc. rewrite K_mul by auto. rewrite <- rsum_scal. apply rsum_ext. intros e He. rewrite K_inv by auto. ring. }
    rewrite rsum_swap. apply rsum_ext. intros c Hc. rewrite rsum_swap. rewrite (rsum_ext D _ (fun e => delta c e * K p c e)).
    - apply (rsum_delta_l D (K p c)); auto.
    - intros e He. rewrite rsum_scal_r. f_equal. rewrite <- (K_id c e), <- (pmul_pinv_l n g), K_mul by auto. apply rsum_ext. intros b Hb. rewrite (K_inv g c b) by auto. auto.
  Qed.

  Lemma PP_trace l t : is_part n l -> (0 <= t < d l)%Z -> rsum D (fun b => PP l t t b b) = IZR (m l).
  Proof.
    intros P Ht. pose proof (dimR_pos n l P Hn) as Dp. pose proof (fact_pos n) as Fp. unfold PP. rewrite rsum_scal, <- lsum_rsum.
    rewrite (lsum_ext L _ (fun p => rsum D (fun b => K p b b) * rr n l p t t)) by (intros p _; rewrite rsum_scal; ring).
    unfold L. rewrite (class_coeff n Hn (fun p => rsum D (fun b => K p b b)) l t t trK_class) by auto. destruct (Z.eq_dec t t); [|congruence]. rewrite <- m_trace by auto. fold L. field. lra.
  Qed.

  Definition isotypic (e : list Z -> Z -> Z -> Z -> R) : Prop :=
    (forall l q t a b, is_part n l -> is_perm n q -> (0 <= t < d l)%Z -> (0 <= a < m l)%Z -> (0 <= b < D)%Z -> rsum D (fun b' => K q b b' * e l t a b') = rsum (d l) (fun r => rr n l q r t * e l r a b)) /\
    (forall l t a l' t' a', is_part n l -> is_part n l' -> (0 <= t < d l)%Z -> (0 <= t' < d l')%Z -> (0 <= a < m l)%Z -> (0 <= a' < m l')%Z ->
      rsum D (fun b => e l t a b * e l' t' a' b) = if list_eq_dec Z.eq_dec l l' then delta t t' * delta a a' else 0) /\
    (forall b b', (0 <= b < D)%Z -> (0 <= b' < D)%Z -> lsum (pl n) (fun l => rsum (d l) (fun t => rsum (m l) (fun a => e l t a b * e l t a b'))) = delta b b').

  Lemma d_pos l : is_part n l -> (0 < d l)%Z.
  Proof. intros P. apply lt_IZR. exact (dimR_pos n l P Hn). Qed.

  Lemma isot_exists : exists e, isotypic e.
  Proof.
    assert (forall l, In l (pl n) -> exists u : Z -> Z -> R, (forall a a', (0 <= a < m l)%Z -> (0 <= a' < m l)%Z -> rsum D (fun b => u a b * u a' b) = delta a a') /\ (forall b b', (0 <= b < D)%Z -> (0 <= b' < D)%Z -> PP l 0 0 b b' = rsum (m l) (fun a => u a b * u a b'))) as H.
    { intros l Hl. apply in_pl in Hl; auto. pose proof (d_pos l Hl) as Dp. pose proof (m_nonneg l Hl) as Mp. destruct (idem_basis D (Z.to_nat (m l)) (PP l 0 0)) as (u & U).
      - intros a b Ha Hb. apply PP_sym; auto; lia.
      - intros a c Ha Hc. rewrite PP_mul by (auto; lia). destruct (list_eq_dec Z.eq_dec l l); [|congruence]. rewrite delta_refl. ring.
      - rewrite PP_trace by (auto; lia). rewrite INR_IZR_INZ. f_equal. lia.
      - exists u. replace (Z.of_nat (Z.to_nat (m l))) with (m l) in U by lia. auto. }
    destruct (list_choice (list_eq_dec Z.eq_dec) (fun _ _ => 0) _ _ H) as (u & U). clear H.
    assert (forall l, is_part n l -> (forall a a', (0 <= a < m l)%Z -> (0 <= a' < m l)%Z -> rsum D (fun b => u l a b * u l a' b) = delta a a') /\ (forall b b', (0 <= b < D)%Z -> (0 <= b' < D)%Z -> PP l 0 0 b b' = rsum (m l) (fun a => u l a b * u l a b'))) as UU by (intros l Pl; apply U; apply in_pl; auto).
    clear U. exists (fun l t a b => rsum D (fun b' => PP l t 0 b b' * u l a b')). split; [|split].
    - intros l q t a b P Hq Ht Ha Hb. rewrite (rsum_ext D _ (fun b' => rsum D (fun b'' => (K q b b' * PP l t 0 b' b'') * u l a b''))) by (intros; rewrite <- rsum_scal; apply rsum_ext; intros; ring). rewrite rsum_swap.
      rewrite (rsum_ext D _ (fun b'' => rsum (d l) (fun r => rr n l q r t * (PP l r 0 b b'' * u l a b'')))) by (intros b'' Hb''; rewrite rsum_scal_r, PP_left by auto; rewrite <- rsum_scal_r; apply rsum_ext; intros; ring). rewrite rsum_swap. apply rsum_ext. intros r Hr. rewrite rsum_scal. auto.
    - intros l t a l' t' a' P P' Ht Ht' Ha Ha'. pose proof (d_pos l P) as Dp. pose proof (d_pos l' P') as Dp'. destruct (UU l P) as (U1 & U2), (UU l' P') as (U1' & U2').
      transitivity (rsum D (fun f => rsum D (fun g => (u l a f * u l' a' g) * rsum D (fun b => PP l 0 t f b * PP l' t' 0 b g)))).
      + transitivity (rsum D (fun b => rsum D (fun f => rsum D (fun g => (u l a f * u l' a' g) * (PP l 0 t f b * PP l' t' 0 b g))))).
        * apply rsum_ext. intros b Hb. rewrite <- rsum_scal_r. apply rsum_ext. intros f Hf. rewrite <- rsum_scal. apply rsum_ext. intros g Hg. rewrite (PP_sym l t 0 b f) by (auto; lia). ring.
        * rewrite rsum_swap. apply rsum_ext. intros f _. rewrite rsum_swap. apply rsum_ext. intros g _. rewrite rsum_scal. auto.
      + rewrite (rsum_ext D _ (fun f => rsum D (fun g => if list_eq_dec Z.eq_dec l l' then delta t t' * (u l a f * (PP l 0 0 f g * u l' a' g)) else 0))) by (intros f Hf; apply rsum_ext; intros g Hg; rewrite PP_mul by (auto; lia); destruct (list_eq_dec Z.eq_dec l l'); ring).
        destruct (list_eq_dec Z.eq_dec l l') as [<-|Ne]; [|apply rsum_zero; intros; apply rsum_zero; auto]. rewrite (rsum_ext D _ (fun f => delta t t' * (u l a f * u l a' f))) by (intros f Hf; rewrite !rsum_scal, (basis_in D (m l) (PP l 0 0) (u l) U1 U2) by auto; auto).
        rewrite rsum_scal, U1 by auto. auto.
    - intros b b' Hb Hb'. rewrite <- PP_sum by auto. apply lsum_ext. intros l Hl. apply in_pl in Hl; auto. pose proof (d_pos l Hl) as Dp. destruct (UU l Hl) as (U1 & U2). apply rsum_ext. intros t Ht.
      transitivity (rsum D (fun f => rsum D (fun g => PP l t 0 b f * PP l 0 t g b' * PP l 0 0 f g))).
      + rewrite (rsum_ext (m l) _ (fun a => rsum D (fun f => rsum D (fun g => PP l t 0 b f * PP l 0 t g b' * (u l a f * u l a g))))).
        * rewrite rsum_swap. apply rsum_ext. intros f Hf. rewrite rsum_swap. apply rsum_ext. intros g Hg. rewrite rsum_scal, <- U2 by auto. auto.
        * intros a Ha. rewrite <- rsum_scal_r. apply rsum_ext. intros f Hf. rewrite <- rsum_scal. apply rsum_ext. intros g Hg. rewrite (PP_sym l t 0 b' g) by (auto; lia). ring.
      + rewrite rsum_swap. rewrite (rsum_ext D _ (fun g => PP l t 0 b g * PP l 0 t g b')).
        * rewrite PP_mul by (auto; lia). destruct (list_eq_dec Z.eq_dec l l); [|congruence]. rewrite delta_refl. ring.
        * intros g Hg. rewrite (rsum_ext D _ (fun f => (PP l t 0 b f * PP l 0 0 f g) * PP l 0 t g b')) by (intros; ring). rewrite rsum_scal_r, PP_mul by (auto; lia). destruct (list_eq_dec Z.eq_dec l l); [|congruence]. rewrite delta_refl. ring.
  Qed.
End Isot.
