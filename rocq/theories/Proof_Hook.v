(* The hook length formula (C18). *)
From Coq Require Import ZArith List Bool Lia ZifyBool QArith Qcanon Field.
From Verif Require Import Model_Base Model_Sn Model_Part Model_Sn32 Model_Tab Spec_Perm Spec_Part Spec_Tab Proof_Base Proof_Part Proof_PartProps Proof_Sn Proof_Tab Proof_TabProps.
Import ListNotations.
Close Scope Q_scope.
Open Scope Z_scope.

(* ---- integers as rationals ---- *)
Definition zq (z : Z) : Qc := Q2Qc (inject_Z z).
Lemma zq_inj a b : zq a = zq b -> a = b.
Proof. intros H. apply (f_equal this) in H. unfold zq, Q2Qc, this in H. assert (Qred (inject_Z a) == Qred (inject_Z b))%Q as K by (rewrite H; reflexivity). rewrite !Qred_correct in K. unfold Qeq in K. cbn in K. lia. Qed.
Lemma zq_add a b : zq (a + b) = (zq a + zq b)%Qc.
Proof. unfold zq. apply Qc_is_canon. cbn [this Q2Qc Qcplus]. rewrite !Qred_correct. rewrite inject_Z_plus. reflexivity. Qed.
Lemma zq_mul a b : zq (a * b) = (zq a * zq b)%Qc.
Proof. unfold zq. apply Qc_is_canon. cbn [this Q2Qc Qcmult]. rewrite !Qred_correct. rewrite inject_Z_mult. reflexivity. Qed.
Lemma zq_opp a : zq (- a) = (- zq a)%Qc.
Proof. unfold zq. apply Qc_is_canon. cbn [this Q2Qc Qcopp]. rewrite !Qred_correct. rewrite inject_Z_opp. reflexivity. Qed.
Lemma zq_sub a b : zq (a - b) = (zq a - zq b)%Qc.
Proof. unfold Z.sub. rewrite zq_add, zq_opp. reflexivity. Qed.
Lemma zq_0 : zq 0 = 0%Qc. Proof. reflexivity. Qed.
Lemma zq_1 : zq 1 = 1%Qc. Proof. reflexivity. Qed.

(* ---- an identity about differences ---- *)
Section Ident.
  Open Scope Qc_scope.
  Variable t : Qc.
  Definition qsum (l : list Qc) : Qc := fold_right Qcplus 0 l.
  Definition qprod (l : list Qc) : Qc := fold_right Qcmult 1 l.
  Definition phi (xs : list Qc) (z : Qc) : Qc := qprod (map (fun x => 1 + t / (z - x)) xs).
  (* pairs (x_i, A_i) *)
  Fixpoint wts (xs : list Qc) : list (Qc * Qc) :=
    match xs with
    | [] => []
    | y :: xs => (y, phi xs y) :: map (fun p => (fst p, snd p * (1 + t / (fst p - y)))) (wts xs)
    end.
  Lemma wts_fst xs : map fst (wts xs) = xs.
  Proof. induction xs as [|y xs IH]; [reflexivity|]. cbn [wts map fst]. rewrite map_map. cbn [fst]. f_equal. exact IH. Qed.
  Lemma qsum_map_plus {A} (l : list A) f g : qsum (map (fun x => f x + g x) l) = qsum (map f l) + qsum (map g l).
  Proof. induction l as [|a l IH]; cbn [map qsum fold_right]; [ring|]. unfold qsum in IH. rewrite IH. ring. Qed.
  Lemma qsum_ext {A} (l : list A) f g : (forall x, In x l -> f x = g x) -> qsum (map f l) = qsum (map g l).
  Proof. intros H. f_equal. apply map_ext_in. auto. Qed.
  Lemma qsum_scal {A} (l : list A) c f : qsum (map (fun x => c * f x) l) = c * qsum (map f l).
  Proof. induction l as [|a l IH]; cbn [map qsum fold_right]; [ring|]. unfold qsum in IH. rewrite IH. ring. Qed.

  Lemma in_wts xs p : In p (wts xs) -> In (fst p) xs.
  Proof. intros H. rewrite <- (wts_fst xs). apply in_map. auto. Qed.

  Lemma sub_ne (a b : Qc) : a <> b -> a - b <> 0.
  Proof. intros H K. apply H. transitivity (a - b + b); [ring|]. rewrite K. ring. Qed.

  Lemma partial_fractions xs : NoDup xs -> forall z, ~ In z xs -> phi xs z = 1 + qsum (map (fun p => t * snd p / (z - fst p)) (wts xs)).
  Proof.
    induction 1 as [|y xs N D IH]; intros z Hz; [unfold phi; cbn; ring|]. unfold phi. cbn [map qprod fold_right wts fst snd qsum]. fold (qprod (map (fun x => 1 + t / (z - x)) xs)). change (qprod (map (fun x => 1 + t / (z - x)) xs)) with (phi xs z).
    rewrite map_map. cbn [fst snd]. rewrite (IH z) by (intros K; apply Hz; right; auto). rewrite (IH y) by auto. assert (z - y <> 0) as Z1 by (apply sub_ne; intros ->; apply Hz; left; auto).
    fold (qsum (map (fun p => t * (snd p * (1 + t / (fst p - y))) / (z - fst p)) (wts xs))).
    rewrite (qsum_ext (wts xs) (fun p => t * (snd p * (1 + t / (fst p - y))) / (z - fst p)) (fun p => (1 + t / (z - y)) * (t * snd p / (z - fst p)) + (- (t / (z - y))) * (t * snd p / (y - fst p)))).
    2: { intros p Hp. apply in_wts in Hp. assert (fst p - y <> 0) by (apply sub_ne; intros K; apply N; congruence). assert (z - fst p <> 0) by (apply sub_ne; intros K; apply Hz; right; congruence). assert (y - fst p <> 0) by (apply sub_ne; intros K; apply N; congruence). field. auto. }
    rewrite qsum_map_plus, !qsum_scal. field. auto.
  Qed.

  Lemma wts_sum xs : NoDup xs -> qsum (map snd (wts xs)) = zq (zlen xs).
  Proof.
    induction 1 as [|y xs N D IH]; [reflexivity|]. cbn [wts map snd qsum fold_right]. rewrite map_map. cbn [snd]. fold (qsum (map (fun p => snd p * (1 + t / (fst p - y))) (wts xs))). rewrite (partial_fractions xs D y N).
    rewrite (qsum_ext (wts xs) (fun p => snd p * (1 + t / (fst p - y))) (fun p => snd p + (-(1)) * (t * snd p / (y - fst p)))).
    2: { intros p Hp. apply in_wts in Hp. assert (fst p - y <> 0) by (apply sub_ne; intros K; apply N; congruence). assert (y - fst p <> 0) by (apply sub_ne; intros K; apply N; congruence). field. auto. }
    rewrite qsum_map_plus, qsum_scal, IH. rewrite zlen_cons, zq_add, zq_1. ring.
  Qed.

  Fixpoint choose2 (k : nat) : Z := match k with O => 0%Z | S k' => (choose2 k' + Z.of_nat k')%Z end.
  Lemma wts_moment xs : NoDup xs -> qsum (map (fun p => fst p * snd p) (wts xs)) = qsum xs + zq (choose2 (length xs)) * t.
  Proof.
    induction 1 as [|y xs N D IH]; [cbn; rewrite zq_0; ring|]. cbn [wts map fst snd length choose2]. cbn [qsum fold_right]. rewrite map_map. cbn [fst snd]. fold (qsum (map (fun p => fst p * (snd p * (1 + t / (fst p - y)))) (wts xs))). fold (qsum xs). rewrite (partial_fractions xs D y N).
    rewrite (qsum_ext (wts xs) (fun p => fst p * (snd p * (1 + t / (fst p - y)))) (fun p => fst p * snd p + (t * snd p + (- y) * (t * snd p / (y - fst p))))).
    2: { intros p Hp. apply in_wts in Hp. assert (fst p - y <> 0) by (apply sub_ne; intros K; apply N; congruence). assert (y - fst p <> 0) by (apply sub_ne; intros K; apply N; congruence). field. auto. }
    rewrite !qsum_map_plus, !qsum_scal, IH. rewrite (wts_sum xs D), zq_add. unfold zlen. ring.
  Qed.

  (* product of the differences *)
  Definition diffs (y : Qc) (xs : list Qc) : Qc := qprod (map (fun x => y - x) xs).
  Fixpoint vdm (xs : list Qc) : Qc := match xs with [] => 1 | y :: xs => diffs y xs * vdm xs end.
  Fixpoint bump (i : nat) (xs : list Qc) : list Qc := match xs, i with [], _ => [] | y :: xs, O => (y + t) :: xs | y :: xs, S i' => y :: bump i' xs end.

  Lemma diffs_shift y xs : ~ In y xs -> diffs (y + t) xs = phi xs y * diffs y xs.
  Proof.
    induction xs as [|x xs IH]; intros N; [unfold diffs, phi; cbn; ring|]. unfold diffs, phi in *. cbn [map qprod fold_right] in *. unfold qprod in IH. rewrite IH by (intros K; apply N; right; auto). assert (y - x <> 0) by (apply sub_ne; intros ->; apply N; left; auto). field. auto.
  Qed.
  Lemma diffs_bump y xs i : ~ In y xs -> (i < length xs)%nat -> diffs y (bump i xs) = (1 + t / (nth i xs 0 - y)) * diffs y xs.
  Proof.
    revert i. induction xs as [|x xs IH]; intros i N Hi; [cbn in Hi; lia|]. assert (x - y <> 0) by (apply sub_ne; intros ->; apply N; left; auto). destruct i as [|i]; unfold diffs in *; cbn [bump map qprod fold_right nth]; [field; auto|]. unfold qprod in IH. rewrite IH; [ring|intros K; apply N; right; auto|cbn in Hi; lia].
  Qed.

  Lemma nth_mapq {A B} (f : A -> B) l i d d' : (i < length l)%nat -> nth i (map f l) d = f (nth i l d').
  Proof. intros H. rewrite (nth_indep _ d (f d')) by (rewrite map_length; auto). apply map_nth. Qed.
  Lemma wts_len xs : length (wts xs) = length xs.
  Proof. rewrite <- (map_length fst), wts_fst. reflexivity. Qed.
  Lemma nth_wts i xs : (i < length xs)%nat -> nth i xs 0 = fst (nth i (wts xs) (0, 0)).
  Proof. intros Hi. rewrite <- (wts_fst xs) at 1. apply nth_mapq. rewrite wts_len. auto. Qed.

  Lemma vdm_bump xs : NoDup xs -> forall i, (i < length xs)%nat -> vdm (bump i xs) = nth i (map snd (wts xs)) 0 * vdm xs.
  Proof.
    induction 1 as [|y xs N D IH]; intros i Hi; [cbn in Hi; lia|]. destruct i as [|i]; cbn [bump vdm wts map nth snd].
    - rewrite diffs_shift by auto. ring.
    - cbn in Hi. rewrite (diffs_bump y xs i N) by lia. rewrite IH by lia. rewrite map_map. cbn [snd]. pose proof (wts_len xs) as Lw.
      rewrite (nth_mapq snd (wts xs) i _ (0, 0)) by lia. rewrite (nth_mapq _ (wts xs) i _ (0, 0)) by lia. rewrite (nth_wts i xs) by lia. ring.
  Qed.

  Lemma vdm_identity xs : NoDup xs -> qsum (map (fun i => nth i xs 0 * vdm (bump i xs)) (seq 0 (length xs))) = (qsum xs + zq (choose2 (length xs)) * t) * vdm xs.
  Proof.
    intros D. rewrite <- (wts_moment xs D). pose proof (wts_len xs) as Lw.
    rewrite (qsum_ext _ _ (fun i => vdm xs * (nth i xs 0 * nth i (map snd (wts xs)) 0))); [|intros i Hi; apply in_seq in Hi; rewrite (vdm_bump xs D) by lia; ring].
    rewrite qsum_scal, Qcmult_comm. f_equal. f_equal. apply (nth_ext _ _ 0 0); [rewrite !map_length, seq_length; auto|]. intros i Hi. rewrite map_length, seq_length in Hi.
    rewrite (nth_mapq _ _ _ _ 0%nat) by (rewrite seq_length; auto). rewrite seq_nth by auto. cbn [plus].
    rewrite (nth_mapq (fun p => fst p * snd p) (wts xs) i _ (0, 0)) by lia. rewrite (nth_mapq snd (wts xs) i _ (0, 0)) by lia. rewrite (nth_wts i xs) by lia. reflexivity.
  Qed.
End Ident.

(* ---- hook products of the rows of a diagram ---- *)
Definition zprod (l : list Z) : Z := fold_right Z.mul 1 l.
Lemma zprod_app a b : zprod (a ++ b) = zprod a * zprod b.
Proof. unfold zprod. induction a as [|x a IH]; cbn [app fold_right]; [lia|]. rewrite IH. ring. Qed.
Lemma zprod_pos l : (forall x, In x l -> 0 < x) -> 0 < zprod l.
Proof. unfold zprod. induction l as [|x l IH]; intros H; cbn [fold_right]; [lia|]. pose proof (H x (or_introl eq_refl)). assert (0 < fold_right Z.mul 1 l) by (apply IH; intros; apply H; right; auto). nia. Qed.

Definition below (mu : list Z) (c : Z) : Z := zlen (filter (fun y => c <=? y) mu).
Definition rowhook (x : Z) (mu : list Z) : Z := zprod (map (fun c => x - c + below mu c + 1) (zrange 1 (x + 1))).
Fixpoint hookprod (l : list Z) : Z := match l with [] => 1 | x :: mu => rowhook x mu * hookprod mu end.
Fixpoint lvl (l : list Z) : list Z := match l with [] => [] | x :: mu => (x + zlen mu) :: lvl mu end.
Fixpoint vdmz (l : list Z) : Z := match l with [] => 1 | x :: mu => zprod (map (fun y => x - y) mu) * vdmz mu end.

Lemma lvl_snoc mu m : lvl (mu ++ [m]) = map (fun y => y + 1) (lvl mu) ++ [m].
Proof. induction mu as [|x mu IH]; [cbn; f_equal; lia|]. cbn [app lvl map]. rewrite IH, zlen_app. change (zlen [m]) with 1. f_equal. lia. Qed.
Lemma zlen_lvl mu : zlen (lvl mu) = zlen mu.
Proof. induction mu as [|x mu IH]; [reflexivity|]. cbn [lvl]. rewrite !zlen_cons. lia. Qed.

Lemma telescope x a m : 0 <= m -> zprod (map (fun c => x - c + (a + 1) + 1) (zrange 1 (m + 1))) * (x + a + 1 - m) = zprod (map (fun c => x - c + a + 1) (zrange 1 (m + 1))) * (x + a + 1).
Proof.
  intros Hm. pattern m. apply natlike_ind; auto.
  - rewrite zrange_nil by lia. cbn [map zprod fold_right]. lia.
  - intros k Hk IH. replace (Z.succ k + 1) with (k + 1 + 1) by lia. rewrite !zrange_snoc, !map_app, !zprod_app by lia. cbn [map zprod fold_right].
    transitivity (zprod (map (fun c => x - c + (a + 1) + 1) (zrange 1 (k + 1))) * (x + a + 1 - k) * (x - (k + 1) + a + 1)); [ring|]. rewrite IH. ring.
Qed.

Lemma rowhook_snoc x mu m : 0 <= m <= x -> (forall y, In y mu -> m <= y) -> rowhook x (mu ++ [m]) * (x + zlen mu + 1 - m) = rowhook x mu * (x + zlen mu + 1).
Proof.
  intros Hm H. unfold rowhook. rewrite (zrange_app 1 (m + 1) (x + 1)) by lia. rewrite !map_app, !zprod_app.
  assert (map (fun c => x - c + below (mu ++ [m]) c + 1) (zrange 1 (m + 1)) = map (fun c => x - c + (zlen mu + 1) + 1) (zrange 1 (m + 1)) /\ map (fun c => x - c + below mu c + 1) (zrange 1 (m + 1)) = map (fun c => x - c + zlen mu + 1) (zrange 1 (m + 1))) as (-> & ->).
  { assert (forall c, In c (zrange 1 (m + 1)) -> below mu c = zlen mu) as B. { intros c Hc. apply in_zrange in Hc. unfold below. f_equal. assert (forall y, In y mu -> (c <=? y) = true) as F by (intros y Hy; specialize (H y Hy); lia). clear - F. induction mu as [|y mu IH]; [reflexivity|]. cbn [filter]. rewrite F by (left; auto). f_equal. apply IH. intros; apply F; right; auto. }
    split; apply map_ext_in; intros c Hc; [|rewrite B by auto; reflexivity]. unfold below. rewrite filter_app, zlen_app. fold (below mu c). rewrite B by auto. apply in_zrange in Hc. cbn [filter]. replace (c <=? m) with true by lia. change (zlen [m]) with 1. lia. }
  assert (map (fun c => x - c + below (mu ++ [m]) c + 1) (zrange (m + 1) (x + 1)) = map (fun c => x - c + below mu c + 1) (zrange (m + 1) (x + 1))) as ->.
  { apply map_ext_in. intros c Hc. apply in_zrange in Hc. unfold below. rewrite filter_app. cbn [filter]. replace (c <=? m) with false by lia. rewrite app_nil_r. reflexivity. }
  pose proof (telescope x (zlen mu) m ltac:(lia)) as T. set (A := zprod (map (fun c => x - c + (zlen mu + 1) + 1) _)) in *. set (B := zprod (map (fun c => x - c + zlen mu + 1) _)) in *. set (C := zprod _). transitivity (A * (x + zlen mu + 1 - m) * C); [ring|]. rewrite T. ring.
Qed.

(* weakly decreasing, nonnegative *)
Fixpoint wdec (l : list Z) : Prop := match l with [] => True | x :: mu => 0 <= x /\ (forall y, In y mu -> y <= x) /\ wdec mu end.
Lemma wdec_snoc mu m : wdec (mu ++ [m]) <-> wdec mu /\ 0 <= m /\ forall y, In y mu -> m <= y.
Proof.
  induction mu as [|x mu IH]; cbn [app wdec].
  - split; [intros (A & _); split; auto; split; auto; intros y []|intros (_ & A & _); split; auto; split; auto; intros y []].
  - rewrite IH. split.
    + intros (A & B & C & D & E). split; [split; [auto|split; [intros y Hy; apply B, in_or_app; auto|auto]]|]. split; [auto|]. intros y [<- | Hy]; [apply B, in_or_app; right; left; auto|auto].
    + intros ((A & B & C) & D & E). split; auto. split; [|split; auto; split; auto; intros; apply E; right; auto]. intros y Hy. apply in_app_or in Hy as [Hy | [<- | []]]; [auto|apply E; left; auto].
Qed.

Lemma row_identity mu : wdec mu -> forall x, 0 <= x -> (forall y, In y mu -> y <= x) -> rowhook x mu * zprod (map (fun y => x + zlen mu - y) (lvl mu)) = zfact (x + zlen mu).
Proof.
  induction mu as [|m mu IH] using rev_ind; intros W x Hx Hy.
  - cbn [lvl map zprod fold_right]. change (zlen (@nil Z)) with 0. rewrite Z.add_0_r, Z.mul_1_r. unfold rowhook. rewrite (map_ext _ (fun c => x - c + 1)) by (intros; unfold below; cbn; lia). clear Hy W. pattern x. apply natlike_ind; [reflexivity| |auto].
    intros k Hk E. rewrite zrange_cons by lia. cbn [map zprod fold_right]. fold (zprod (map (fun c => Z.succ k - c + 1) (zrange (1 + 1) (Z.succ k + 1)))). rewrite zfact_step by lia. replace (Z.succ k - 1) with k by lia. rewrite <- E. replace (Z.succ k - 1 + 1) with (Z.succ k) by lia. f_equal. f_equal.
    apply (list_ext _ _ 0); [rewrite !zlen_map, !zlen_zrange; lia|]. intros i Hi. rewrite zlen_map, zlen_zrange in Hi. rewrite !(znth_map _ _ _ 0) by (rewrite zlen_zrange; lia). rewrite !znth_zrange by lia. lia.
  - apply wdec_snoc in W as (W & M0 & Mm). rewrite zlen_app, lvl_snoc, map_app, zprod_app, map_map. change (zlen [m]) with 1. cbn [map zprod fold_right].
    rewrite (map_ext (fun y => x + (zlen mu + 1) - (y + 1)) (fun y => x + zlen mu - y)) by (intros; lia). set (Z0 := zprod (map (fun y => x + zlen mu - y) (lvl mu))).
    assert (0 <= m <= x) as Mx by (split; [auto|apply Hy, in_or_app; right; left; auto]). pose proof (rowhook_snoc x mu m Mx Mm) as R. specialize (IH W x Hx ltac:(intros y Hy'; apply Hy, in_or_app; left; auto)). fold Z0 in IH.
    transitivity (rowhook x (mu ++ [m]) * (x + zlen mu + 1 - m) * Z0); [ring|]. rewrite R. transitivity ((x + zlen mu + 1) * (rowhook x mu * Z0)); [ring|]. rewrite IH. pose proof (zlen_nonneg mu). rewrite (zfact_step (x + (zlen mu + 1))) by lia. f_equal; [lia|]. f_equal. lia.
Qed.

Lemma hook_identity l : wdec l -> hookprod l * vdmz (lvl l) = zprod (map zfact (lvl l)).
Proof.
  induction l as [|x mu IH]; intros W; [reflexivity|]. destruct W as (X0 & Hx & W). cbn [hookprod lvl vdmz map zprod fold_right]. rewrite <- (row_identity mu W x X0 Hx). fold (zprod (map zfact (lvl mu))). rewrite <- IH by auto. ring.
Qed.

Lemma lvl_sum l : zsum (lvl l) = zsum l + choose2 (length l).
Proof. induction l as [|x mu IH]; [reflexivity|]. cbn [lvl length choose2 zsum fold_right]. unfold zsum in IH. rewrite IH. unfold zlen. lia. Qed.

Lemma vdm_zq l : vdm (map zq l) = zq (vdmz l).
Proof.
  induction l as [|x l IH]; [reflexivity|]. cbn [map vdm vdmz]. rewrite zq_mul, <- IH. f_equal. clear IH. unfold diffs. rewrite map_map. induction l as [|y l IH]; [reflexivity|]. cbn [map qprod fold_right zprod]. fold (zprod (map (fun y => x - y) l)). rewrite zq_mul, zq_sub. f_equal. exact IH.
Qed.
Lemma qsum_zq l : qsum (map zq l) = zq (zsum l).
Proof. induction l as [|x l IH]; [reflexivity|]. cbn [map qsum zsum fold_right]. fold (zsum l). rewrite zq_add. f_equal. exact IH. Qed.

(* ---- the number of standard tableaux ---- *)
Definition pad (k : nat) (l : list Z) : list Z := l ++ repeat 0 (k - length l)%nat.
Lemma pad_len k l : (length l <= k)%nat -> length (pad k l) = k.
Proof. intros H. unfold pad. rewrite app_length, repeat_length. lia. Qed.
Lemma nth_pad k l i : nth i (pad k l) 0 = row l (Z.of_nat i).
Proof.
  unfold pad, row. rewrite Nat2Z.id. destruct (Nat.lt_ge_cases i (length l)); [rewrite app_nth1 by auto; reflexivity|]. rewrite app_nth2, (nth_overflow l) by lia. apply nth_repeat.
Qed.
Lemma wdec_nth l : (forall i, (i < length l)%nat -> 0 <= nth i l 0) -> (forall i j, (i <= j < length l)%nat -> nth j l 0 <= nth i l 0) -> wdec l.
Proof.
  induction l as [|x l IH]; intros A B; [exact I|]. cbn [wdec]. split; [apply (A 0%nat); cbn; lia|]. split.
  - intros y Hy. apply In_nth with (d := 0) in Hy as (i & Hi & <-). apply (B 0%nat (S i)). cbn. lia.
  - apply IH; [intros i Hi; apply (A (S i)); cbn; lia|intros i j Hij; apply (B (S i) (S j)); cbn; lia].
Qed.
Lemma row_mono n l i j : is_part n l -> 0 <= i <= j -> row l j <= row l i.
Proof. intros P H. replace j with (i + (j - i)) by lia. assert (forall d, 0 <= d -> row l (i + d) <= row l i) as K; [|apply K; lia]. intros d Hd. pattern d. apply natlike_ind; auto; [rewrite Z.add_0_r; lia|]. intros e He IH. pose proof (is_part_step n l (i + e) P ltac:(lia)). replace (i + Z.succ e) with (i + e + 1) by lia. lia. Qed.
Lemma is_part_ppos n l : is_part n l -> ppos l.
Proof. intros (A & _). exact A. Qed.
Lemma wdec_pad n k l : is_part n l -> wdec (pad k l).
Proof. intros P. apply wdec_nth; intros; rewrite !nth_pad; [apply ppos_row_nonneg; eapply is_part_ppos; eauto|apply (row_mono n); auto; lia]. Qed.
Lemma lvl_len l : length (lvl l) = length l.
Proof. induction l; cbn; auto. Qed.
Lemma nth_lvl l : forall i, (i < length l)%nat -> nth i (lvl l) 0 = nth i l 0 + (Z.of_nat (length l) - 1 - Z.of_nat i).
Proof. induction l as [|x l IH]; intros i Hi; [cbn in Hi; lia|]. destruct i as [|i]; cbn [lvl nth length]; [unfold zlen; lia|]. rewrite IH by (cbn in Hi; lia). lia. Qed.

Lemma lvl_lt l x y : (forall z, In z l -> z <= x) -> In y (lvl l) -> y < x + zlen l.
Proof. induction l as [|z l IH]; intros H Hy; [destruct Hy|]. cbn [lvl] in Hy. rewrite zlen_cons. destruct Hy as [<- | Hy]; [pose proof (H z (or_introl eq_refl)); lia|]. specialize (IH ltac:(intros; apply H; right; auto) Hy). lia. Qed.
Lemma NoDup_lvl l : wdec l -> NoDup (lvl l).
Proof. induction l as [|x l IH]; intros W; [constructor|]. destruct W as (A & B & C). cbn [lvl]. constructor; [|auto]. intros K. pose proof (lvl_lt l x _ B K). lia. Qed.

Fixpoint low (r : nat) (l : list Z) : list Z := match l, r with [], _ => [] | x :: l, O => (x - 1) :: l | x :: l, S r' => x :: low r' l end.
Lemma low_len l : forall r, length (low r l) = length l.
Proof. induction l as [|x l IH]; intros [|r]; cbn; auto. Qed.
Lemma nth_low l : forall r i, (i < length l)%nat -> nth i (low r l) 0 = nth i l 0 - (if Nat.eqb i r then 1 else 0).
Proof. induction l as [|x l IH]; intros [|r] [|i] Hi; cbn [length] in Hi; try lia; cbn [low nth Nat.eqb]; try lia. apply IH. lia. Qed.
Lemma zq_low l : forall r, map zq (low r l) = bump (zq (-1)) r (map zq l).
Proof. induction l as [|x l IH]; intros [|r]; cbn [low map bump]; auto; [rewrite <- zq_add; reflexivity|rewrite IH; reflexivity]. Qed.
Lemma fact_low l : forall r, (r < length l)%nat -> 1 <= nth r l 0 -> zprod (map zfact l) = nth r l 0 * zprod (map zfact (low r l)).
Proof.
  induction l as [|x l IH]; intros r Hr H; [cbn in Hr; lia|]. destruct r as [|r]; cbn [low map nth zprod fold_right] in *.
  - rewrite (zfact_step x) by lia. ring.
  - fold (zprod (map zfact l)). rewrite (IH r) by (auto; cbn in Hr; lia). fold (zprod (map zfact (low r l))). ring.
Qed.
Lemma vdm_dup xs : forall i j, (i < j < length xs)%nat -> nth i xs 0%Qc = nth j xs 0%Qc -> vdm xs = 0%Qc.
Proof.
  induction xs as [|x xs IH]; intros i j Hij E; [cbn in Hij; lia|]. destruct j as [|j]; [lia|]. destruct i as [|i]; cbn [nth vdm] in *.
  - assert (diffs x xs = 0%Qc) as ->; [|ring]. assert (In x xs) as K by (rewrite E; apply nth_In; cbn in Hij; lia). clear - K. unfold diffs. induction xs as [|y xs IH]; [destruct K|]. cbn [map qprod fold_right]. destruct K as [-> | K]; [ring|]. unfold qprod in IH. rewrite IH by auto. ring.
  - rewrite (IH i j) by (auto; cbn in Hij; lia). ring.
Qed.

Lemma pad_prem n l k r : is_part n l -> (length l <= k)%nat -> In r (corners l) -> lvl (pad k (prem l r)) = low (Z.to_nat r) (lvl (pad k l)).
Proof.
  intros P Hk Hr. apply in_corners in Hr as (Hr & Hc). pose proof (is_part_prem n l r P Hr Hc) as P'. pose proof (is_part_ppos n l P) as PP.
  assert (length (prem l r) <= k)%nat as Hk'.
  { destruct (Nat.le_gt_cases (length (prem l r)) k) as [|K]; [auto|exfalso]. pose proof (ppos_row (prem l r) (Z.of_nat k) (is_part_ppos _ _ P') ltac:(unfold zlen; lia)) as Q. rewrite row_prem in Q by (auto; lia). rewrite (row_out l (Z.of_nat k)) in Q by (unfold zlen; lia). destruct (Z.of_nat k =? r); lia. }
  apply (nth_ext _ _ 0 0); [rewrite low_len, !lvl_len, !pad_len; auto|]. intros i Hi. rewrite lvl_len, pad_len in Hi by auto. rewrite nth_low by (rewrite lvl_len, pad_len; auto). rewrite !nth_lvl by (rewrite pad_len; auto). rewrite !pad_len, !nth_pad by auto. rewrite row_prem by (auto; lia).
  destruct (Z.eqb_spec (Z.of_nat i) r), (Nat.eqb_spec i (Z.to_nat r)); lia.
Qed.

(* sums over the corners *)
Lemma qsum_app a b : qsum (a ++ b) = (qsum a + qsum b)%Qc.
Proof. unfold qsum. induction a as [|x a IH]; cbn [app fold_right]; [ring|]. rewrite IH. ring. Qed.
Lemma qsum_rev l : qsum (rev l) = qsum l.
Proof. induction l as [|x l IH]; [reflexivity|]. cbn [rev]. rewrite qsum_app, IH. unfold qsum. cbn [fold_right]. ring. Qed.
Lemma qsum_filter {A} (b : A -> bool) (g : A -> Qc) l : (forall x, In x l -> b x = false -> g x = 0%Qc) -> qsum (map g (filter b l)) = qsum (map g l).
Proof.
  induction l as [|x l IH]; intros H; [reflexivity|]. cbn [filter map]. assert (qsum (map g (filter b l)) = qsum (map g l)) as E by (apply IH; intros; apply H; auto; right; auto). unfold qsum in *. destruct (b x) eqn:B; cbn [map fold_right]; rewrite E; [reflexivity|]. rewrite (H x) by (auto; left; auto). ring.
Qed.
Lemma qsum_0 {A} (l : list A) g : (forall x, In x l -> g x = 0%Qc) -> qsum (map g l) = 0%Qc.
Proof. intros H. induction l as [|x l IH]; [reflexivity|]. cbn [map qsum fold_right]. unfold qsum in IH. rewrite IH by (intros; apply H; right; auto). rewrite H by (left; auto). ring. Qed.
Lemma corner_sum l k (g : Z -> Qc) : (length l <= k)%nat -> (forall r, 0 <= r < Z.of_nat k -> ~ In r (corners l) -> g r = 0%Qc) -> qsum (map g (corners l)) = qsum (map (fun i => g (Z.of_nat i)) (seq 0 k)).
Proof.
  intros Hk H. unfold corners. rewrite qsum_filter.
  - rewrite map_rev, qsum_rev. transitivity (qsum (map g (zrange 0 (Z.of_nat k)))); [|unfold zrange; rewrite map_map, Z.sub_0_r, Nat2Z.id; apply qsum_ext; intros; f_equal; lia].
    rewrite (zrange_app 0 (zlen l) (Z.of_nat k)) by (unfold zlen; lia). rewrite map_app, qsum_app. rewrite (qsum_0 (zrange (zlen l) (Z.of_nat k))); [ring|]. intros r Hr. apply in_zrange in Hr. pose proof (zlen_nonneg l). apply H; [lia|]. rewrite in_corners. lia.
  - intros r Hr B. apply in_rev in Hr. rewrite ?rev_involutive in Hr. apply in_zrange in Hr. apply H; [unfold zlen in Hr; lia|]. rewrite in_corners. lia.
Qed.

Lemma paths_rec n l : zlen (paths (S n) l) = zsum (map (fun r => zlen (paths n (prem l r))) (corners l)).
Proof. cbn [paths]. induction (corners l) as [|r c IH]; [reflexivity|]. cbn [flat_map map zsum fold_right]. rewrite zlen_app, zlen_map. unfold zsum in IH. rewrite IH. reflexivity. Qed.

Lemma count_identity n : forall l, is_part (Z.of_nat n) l -> forall k, (length l <= k)%nat ->
  (zq (zlen (paths n l)) * zq (zprod (map zfact (lvl (pad k l)))) = zq (zfact (Z.of_nat n)) * vdm (map zq (lvl (pad k l))))%Qc.
Proof.
  induction n as [|n IH]; intros l P k Hk.
  - rewrite vdm_zq. change (zlen (paths 0 l)) with 1. change (zfact (Z.of_nat 0)) with 1. rewrite <- (hook_identity _ (wdec_pad _ k l P)).
    assert (l = []) as ->. { destruct P as (A & _ & S0). destruct l as [|x l]; [auto|exfalso]. assert (0 <= zsum l) by (assert (forall y, In y l -> 1 <= y) as A' by (intros; apply A; right; auto); clear - A'; induction l as [|y l IH]; cbn [zsum fold_right]; [lia|]; specialize (IH ltac:(intros; apply A'; right; auto)); specialize (A' y (or_introl eq_refl)); unfold zsum in IH; lia). specialize (A x (or_introl eq_refl)). cbn [zsum fold_right] in S0. unfold zsum in *. lia. }
    assert (hookprod (pad k []) = 1) as ->; [|f_equal; f_equal; apply Z.mul_1_l]. unfold pad. cbn [app length]. rewrite Nat.sub_0_r. clear. induction k as [|k IH]; [reflexivity|]. cbn [repeat hookprod]. rewrite IH. reflexivity.
  - set (L := lvl (pad k l)). set (xs := map zq L). assert (length xs = k) as Lx by (unfold xs, L; rewrite map_length, lvl_len, pad_len; auto).
    pose proof (vdm_identity (zq (-1)) xs) as V. rewrite Lx in V. assert (NoDup xs) as D. { unfold xs. apply NoDup_map_inj_in; [intros; apply zq_inj; auto|]. apply NoDup_lvl. apply (wdec_pad (Z.of_nat (S n))); auto. }
    specialize (V D). assert (qsum xs + zq (choose2 k) * zq (-1) = zq (Z.of_nat (S n)))%Qc as E.
    { unfold xs. rewrite qsum_zq. unfold L. rewrite lvl_sum, pad_len by auto. rewrite <- zq_mul, <- zq_add. f_equal. assert (zsum (pad k l) = Z.of_nat (S n)) as ->; [|lia]. unfold pad. rewrite zsum_app. destruct P as (_ & _ & ->). assert (forall m, zsum (repeat 0 m) = 0) as -> by (induction m; cbn; auto). lia. }
    rewrite E in V. rewrite (qsum_ext _ _ (fun i => nth (Z.to_nat (Z.of_nat i)) xs 0 * vdm (bump (zq (-1)) (Z.to_nat (Z.of_nat i)) xs))%Qc) in V by (intros i _; rewrite Nat2Z.id; reflexivity).
    rewrite <- (corner_sum l k (fun r => nth (Z.to_nat r) xs 0 * vdm (bump (zq (-1)) (Z.to_nat r) xs))%Qc) in V.
    + rewrite paths_rec. assert (zfact (Z.of_nat (S n)) = Z.of_nat (S n) * zfact (Z.of_nat n)) as -> by (rewrite zfact_step by lia; f_equal; f_equal; lia). rewrite zq_mul.
      transitivity (zq (zfact (Z.of_nat n)) * (zq (Z.of_nat (S n)) * vdm xs))%Qc; [|ring]. rewrite <- V. rewrite <- qsum_scal. rewrite <- qsum_zq, map_map. rewrite Qcmult_comm, <- qsum_scal. apply qsum_ext. intros r Hr.
      pose proof (pad_prem _ l k r P Hk Hr) as PR. fold L in PR. assert (is_part (Z.of_nat n) (prem l r)) as P'. { apply in_corners in Hr as (A & B). replace (Z.of_nat n) with (Z.of_nat (S n) - 1) by lia. apply is_part_prem; auto. }
      assert (length (prem l r) <= k)%nat as Hk'.
      { destruct (Nat.le_gt_cases (length (prem l r)) k) as [|K]; [auto|exfalso]. apply in_corners in Hr as (A & B). pose proof (ppos_row (prem l r) (Z.of_nat k) (is_part_ppos _ _ P') ltac:(unfold zlen; lia)) as Q. rewrite row_prem in Q by (eauto using is_part_ppos; lia). rewrite (row_out l (Z.of_nat k)) in Q by (unfold zlen; lia). destruct (Z.of_nat k =? r); lia. }
      specialize (IH (prem l r) P' k Hk'). rewrite PR, zq_low in IH. fold xs in IH. apply in_corners in Hr as (A & B). assert (Z.to_nat r < k)%nat as Rk by (unfold zlen in A; lia).
      assert (1 <= nth (Z.to_nat r) L 0) as L1. { unfold L. rewrite nth_lvl by (rewrite pad_len; auto). rewrite nth_pad, pad_len by auto. rewrite Z2Nat.id by lia. pose proof (ppos_row l r (is_part_ppos _ _ P) A). lia. }
      rewrite (fact_low L (Z.to_nat r)) by (auto; unfold L; rewrite lvl_len, pad_len; auto). rewrite zq_mul. assert (nth (Z.to_nat r) xs 0%Qc = zq (nth (Z.to_nat r) L 0)) as -> by (unfold xs; apply nth_mapq; unfold L; rewrite lvl_len, pad_len; auto).
      transitivity (zq (nth (Z.to_nat r) L 0%Z) * (zq (zlen (paths n (prem l r))) * zq (zprod (map zfact (low (Z.to_nat r) L)))))%Qc; [ring|]. rewrite IH. ring.
    + auto.
    + intros r Hr NC. assert (Z.to_nat r < k)%nat as Rk by lia. rewrite in_corners in NC. assert (nth (Z.to_nat r) xs 0%Qc = zq (nth (Z.to_nat r) L 0)) as En by (unfold xs; apply nth_mapq; unfold L; rewrite lvl_len, pad_len; auto).
      assert (row l (r + 1) = row l r) as Eq. { pose proof (is_part_step _ l r P ltac:(lia)). destruct (Z_lt_le_dec r (zlen l)); [lia|]. rewrite !row_out by lia. reflexivity. }
      destruct (Z_lt_le_dec (r + 1) (Z.of_nat k)).
      * unfold xs at 2. rewrite <- zq_low. rewrite (vdm_dup _ (Z.to_nat r) (S (Z.to_nat r))); [ring|rewrite map_length, low_len; unfold L; rewrite lvl_len, pad_len by auto; lia|].
        assert (forall i, (i < k)%nat -> nth i (map zq (low (Z.to_nat r) L)) 0%Qc = zq (nth i (low (Z.to_nat r) L) 0)) as Nq by (intros i Hi; apply nth_mapq; rewrite low_len; unfold L; rewrite lvl_len, pad_len; auto).
        rewrite !Nq by lia. f_equal. rewrite !nth_low by (unfold L; rewrite lvl_len, pad_len by auto; lia). rewrite Nat.eqb_refl. replace (Nat.eqb (S (Z.to_nat r)) (Z.to_nat r)) with false by (symmetry; apply Nat.eqb_neq; lia). unfold L. rewrite !nth_lvl, !nth_pad, !pad_len by (rewrite ?pad_len by auto; lia). replace (Z.of_nat (S (Z.to_nat r))) with (r + 1) by lia. rewrite Z2Nat.id by lia. lia.
      * rewrite En. assert (nth (Z.to_nat r) L 0 = 0) as ->; [|rewrite zq_0; ring]. unfold L. rewrite nth_lvl, nth_pad, pad_len by (rewrite ?pad_len by auto; lia). rewrite Z2Nat.id by lia. rewrite <- Eq, row_out by (unfold zlen; lia). lia.
Qed.

Lemma zfact_prod_pos l : 0 < zprod (map zfact l).
Proof. apply zprod_pos. intros x Hx. apply in_map_iff in Hx as (y & <- & _). apply zfact_pos. Qed.

Lemma hook_formula n l : is_part (Z.of_nat n) l -> zlen (paths n l) * hookprod l = zfact (Z.of_nat n).
Proof.
  intros P. pose proof (count_identity n l P (length l) (le_n _)) as C. assert (pad (length l) l = l) as E by (unfold pad; rewrite Nat.sub_diag; apply app_nil_r). rewrite E in C. rewrite vdm_zq, <- !zq_mul in C. apply zq_inj in C.
  pose proof (wdec_pad _ (length l) l P) as W. rewrite E in W. pose proof (hook_identity l W) as H. pose proof (zfact_prod_pos (lvl l)) as Q. rewrite <- H in C, Q. apply (Z.mul_reg_r _ _ (vdmz (lvl l))); [intros K; rewrite K in Q; lia|]. rewrite <- C. ring.
Qed.

(* ---- the loops ---- *)
Lemma skipn_znth {A} (l : list A) i d : 0 <= i < zlen l -> skipn (Z.to_nat i) l = znth l i d :: skipn (Z.to_nat (i + 1)) l.
Proof.
  unfold zlen, znth. intros H. replace (Z.to_nat (i + 1)) with (S (Z.to_nat i)) by lia. assert (Z.to_nat i < length l)%nat as K by lia. clear H. revert K. generalize (Z.to_nat i) as k. induction l as [|x l IH]; intros k K; [cbn in K; lia|]. destruct k as [|k]; [reflexivity|]. cbn [skipn nth]. apply (IH k). cbn in K. lia.
Qed.
Lemma below_loop p r c : 0 <= r <= zlen p -> zfor (r + 1) (zlen p + 1) (fun i b => v <- rd p (i - 1) ;; Ret (b + (if v >=? c then 1 else 0))) 0 = Ret (below (skipn (Z.to_nat r) p) c).
Proof.
  intros Hr. set (body := fun i b => _). destruct (zfor_inv (fun i b => b + below (skipn (Z.to_nat (i - 1)) p) c = below (skipn (Z.to_nat r) p) c) (r + 1) (zlen p + 1) body 0) as (b & E & Q).
  - lia.
  - replace (r + 1 - 1) with r by lia. lia.
  - intros i b Hi Q. unfold body. rewrite (rd_ok p (i - 1) 0) by lia. cbn [bind]. eexists. split; [reflexivity|]. rewrite <- Q. rewrite (skipn_znth p (i - 1) 0) by lia. replace (i - 1 + 1) with (i + 1 - 1) by lia. unfold below. cbn [filter]. destruct (Z.leb_spec c (znth p (i - 1) 0)), (Z.geb_spec (znth p (i - 1) 0) c); try lia. rewrite zlen_cons. lia.
  - rewrite E. f_equal. rewrite <- Q. replace (zlen p + 1 - 1) with (zlen p) by lia. rewrite skipn_all2 by (unfold zlen; lia). unfold below. cbn. lia.
Qed.

Lemma hook_pos_row x mu : 0 < rowhook x mu.
Proof. apply zprod_pos. intros y Hy. apply in_map_iff in Hy as (c & <- & Hc). apply in_zrange in Hc. unfold below. pose proof (zlen_nonneg (filter (fun z => c <=? z) mu)). lia. Qed.
Lemma hookprod_pos l : 0 < hookprod l.
Proof. induction l as [|x l IH]; cbn [hookprod]; [lia|]. pose proof (hook_pos_row x l). nia. Qed.

Lemma cdiv_pos a b : 0 <= a -> 0 < b -> cdiv a b = Ret (a / b).
Proof. intros A B. unfold cdiv. replace (b =? 0) with false by lia. rewrite Z.quot_div_nonneg by lia. reflexivity. Qed.

Definition hook_loops (p : list Z) (res : Z) : outcome Z :=
  zfor 1 (zlen p + 1)
    (fun r res =>
       pr <- rd p (r - 1) ;;
       zfor 1 (pr + 1)
         (fun c res =>
            below <- zfor (r + 1) (zlen p + 1)
                       (fun i below => v <- rd p (i - 1) ;; Ret (below + (if v >=? c then 1 else 0))) 0 ;;
            cdiv res (pr - c + below + 1)) res) res.

Lemma hook_loops_ok p res : ppos p -> 0 <= res -> hook_loops p res = Ret (res / hookprod p).
Proof.
  intros PP R0. unfold hook_loops. match goal with |- context [zfor 1 _ ?b _] => set (body := b) end.
  destruct (zfor_inv (fun r s => exists Q, 0 < Q /\ s = res / Q /\ Q * hookprod (skipn (Z.to_nat (r - 1)) p) = hookprod p) 1 (zlen p + 1) body res) as (s & E & Q & Q0 & Es & EQ).
  - pose proof (zlen_nonneg p). lia.
  - exists 1. split; [lia|]. rewrite Z.div_1_r. split; [reflexivity|]. change (Z.to_nat (1 - 1)) with 0%nat. cbn [skipn]. lia.
  - intros r s Hr (Q & Q0 & Es & EQ). unfold body at 1. rewrite (rd_ok p (r - 1) 0) by lia. cbn [bind]. set (pr := znth p (r - 1) 0). pose proof (ppos_row p (r - 1) PP ltac:(lia)) as P1. change (row p (r - 1)) with pr in P1.
    set (mu := skipn (Z.to_nat r) p). rewrite (skipn_znth p (r - 1) 0) in EQ by lia. replace (r - 1 + 1) with r in EQ by lia. fold pr in EQ. fold mu in EQ. cbn [hookprod] in EQ.
    match goal with |- context [zfor 1 (pr + 1) ?b _] => set (body2 := b) end.
    destruct (zfor_inv (fun c s => s = res / (Q * zprod (map (fun c => pr - c + below mu c + 1) (zrange 1 c)))) 1 (pr + 1) body2 s) as (s' & E' & Es').
    + lia.
    + rewrite zrange_nil by lia. cbn [map zprod fold_right]. rewrite Z.mul_1_r. exact Es.
    + intros c s1 Hc Es1. unfold body2. rewrite (below_loop p r c) by lia. cbn [bind]. fold mu. pose proof (zlen_nonneg (filter (fun y => c <=? y) mu)) as B0. fold (below mu c) in B0.
      assert (0 < zprod (map (fun c => pr - c + below mu c + 1) (zrange 1 c))) as Pp. { apply zprod_pos. intros y Hy. apply in_map_iff in Hy as (c' & <- & Hc'). apply in_zrange in Hc'. pose proof (zlen_nonneg (filter (fun y => c' <=? y) mu)). unfold below. lia. }
      rewrite cdiv_pos; [|subst s1; apply Z.div_pos; nia|lia]. eexists. split; [reflexivity|]. rewrite zrange_snoc, map_app, zprod_app by lia. cbn [map zprod fold_right]. rewrite Z.mul_1_r, Z.mul_assoc. rewrite <- Z.div_div by nia. rewrite Es1. reflexivity.
    + exists s'. split; [exact E'|]. exists (Q * rowhook pr mu). pose proof (hook_pos_row pr mu). split; [nia|]. split; [exact Es'|]. replace (r + 1 - 1) with r by lia. fold mu. rewrite <- EQ. ring.
  - rewrite E, Es. f_equal. f_equal. rewrite <- EQ. replace (zlen p + 1 - 1) with (zlen p) by lia. rewrite skipn_all2 by (unfold zlen; lia). cbn [hookprod]. lia.
Qed.

Lemma hooklength_ok n l : is_part (Z.of_nat n) l -> ip_hooklength l = Ret (zlen (paths n l)).
Proof.
  intros P. unfold ip_hooklength, ip_factorial. rewrite ip_getn_zsum. destruct P as (A & B & S0) eqn:EP. rewrite S0. replace (Z.of_nat n <? 0) with false by lia. cbn [bind].
  change (hook_loops l (zfact (Z.of_nat n)) = Ret (zlen (paths n l))). pose proof (zfact_pos (Z.of_nat n)). rewrite hook_loops_ok by (auto; lia). f_equal. rewrite <- (hook_formula n l (conj A (conj B S0))). pose proof (hookprod_pos l). apply Z.div_mul. lia.
Qed.

Lemma hooklength_statement n l : is_part n l -> exists L, NoDup L /\ (forall t, In t L <-> standard l t) /\ ip_hooklength l = Ret (Z.of_nat (length L)).
Proof.
  intros P. assert (0 <= n) as N0. { destruct P as (A & _ & <-). clear - A. induction l as [|x l IH]; cbn [zsum fold_right]; [lia|]. specialize (IH ltac:(intros; apply A; right; auto)). specialize (A x (or_introl eq_refl)). unfold zsum in IH. lia. }
  assert (is_part (Z.of_nat (Z.to_nat n)) l) as P' by (rewrite Z2Nat.id by lia; auto). destruct (paths_standard _ _ P') as (A & B). exists (map tw (paths (Z.to_nat n) l)). split; [|split].
  - apply NoDup_map_inj_in; [|apply NoDup_paths]. intros x y Hx Hy. apply tw_inj with (lambda := l) (k := Z.to_nat n); auto.
  - intros t. rewrite in_map_iff. split; [intros (w & <- & Hw); auto|]. intros St. destruct (B t St) as (w & Hw & E). eauto.
  - rewrite (hooklength_ok _ _ P'). rewrite map_length. reflexivity.
Qed.

Lemma fact32_ok k : (k <= 12)%nat -> ip_fact32n k = Ret (zfactn k).
Proof. intros H. do 13 (destruct k as [|k]; [reflexivity|]). lia. Qed.
Lemma fact32_over k : (13 <= k)%nat -> ip_fact32n k = UB.
Proof. intros H. replace k with (13 + (k - 13))%nat by lia. generalize (k - 13)%nat as j. clear. induction j as [|j IH]; [reflexivity|]. replace (13 + S j)%nat with (S (13 + j))%nat by lia. cbn [ip_fact32n]. rewrite IH. reflexivity. Qed.

Lemma hooklength32_ok n l : is_part n l -> 0 <= n <= 12 -> ip_hooklength32 l = ip_hooklength l.
Proof.
  intros P Hn. unfold ip_hooklength32, ip_hooklength, ip_factorial32, ip_factorial. rewrite ip_getn_zsum. destruct P as (_ & _ & ->). replace (n <? 0) with false by lia. rewrite fact32_ok by lia. reflexivity.
Qed.
Lemma hooklength32_over n l : is_part n l -> 13 <= n -> ip_hooklength32 l = UB.
Proof.
  intros P Hn. unfold ip_hooklength32, ip_factorial32. rewrite ip_getn_zsum. destruct P as (_ & _ & ->). replace (n <? 0) with false by lia. rewrite fact32_over by lia. reflexivity.
Qed.
