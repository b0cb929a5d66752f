(* Products of batches that return had parts of one size only. *)
From Coq Require Import ZArith List Bool Lia Reals.
From Verif Require Import Model_Base Model_Perm Model_Part Model_Comb Model_Tab Model_Irrep Model_Type Model_FFT Model_Vec Model_Char Model_CG Model_CGvec Model_VecB.
From Verif Require Import Spec_VecB.
From Verif Require Import Proof_Base Proof_FFTover.
Import ListNotations.
Open Scope Z_scope.

Lemma wr_sizes R k P P0 R' : rd R k = Ret P0 -> pb_b P = pb_b P0 -> wr R k P = Ret R' -> map pb_b R' = map pb_b R.
Proof.
  unfold rd, wr. intros E0 Eb E. destruct (0 <=? k) eqn:K; [|discriminate]. destruct (k <? zlen R); [|discriminate]. cbn in E. apply Ret_inj in E. subst R'.
  destruct (nth_error R (Z.to_nat k)) as [Q|] eqn:EN; [|discriminate]. apply Ret_inj in E0. subst Q.
  revert EN. generalize (Z.to_nat k). clear - Eb. intros i. revert R. induction i as [|i IH]; intros [|A R] EN; try discriminate; cbn in *.
  - injection EN as ->. rewrite Eb. reflexivity.
  - f_equal. apply IH. auto.
Qed.

Ltac inv H := let x := fresh "x" in let E := fresh "E" in apply bind_inv in H; destruct H as (x & E & H).

Lemma tinc_size A i j k x T : tinc A i j k x = Ret T -> t_n0 T = t_n0 A.
Proof. unfold tinc. intros H. inv H. unfold tset in H. destruct (_ && _); [|discriminate]. apply Ret_inj in H. subst. reflexivity. Qed.

Lemma block3_size A i j B i' j' h w T : block3_add A i j B i' j' h w = Ret T -> t_n0 T = t_n0 A.
Proof. unfold block3_add. destruct (_ && _); [|discriminate]. intros H. apply Ret_inj in H. subst. reflexivity. Qed.

Lemma up_sizes R offs sub tau R' o' : vb_accumulate_up R offs sub tau = Ret (R', o') -> map pb_b R' = map pb_b R.
Proof.
  unfold vb_accumulate_up. intros H. inv H. destruct x as [[R1 o1] s1]. apply Ret_inj in H. injection H as <- _.
  apply (foldM_pinv (fun st => map pb_b (fst (fst st)) = map pb_b R)) in E; [exact E|reflexivity|]. clear. intros p [[R1 o1] s1] [[R2 o2] s2] _ I H. cbn [fst snd] in *.
  inv H. inv H. rename x0 into tgt. inv H. destruct x0 as [co o3]. inv H. inv H. destruct x1 as [[D ro] so]. inv H. inv H. apply Ret_inj in H. injection H as <- _ _.
  rewrite <- I. eapply wr_sizes; [eassumption| |eassumption]. unfold pb_b at 1. cbn [pb_t].
  match goal with HF : foldM _ _ (pb_t tgt, _, _) = Ret (D, _, _) |- _ => apply (foldM_pinv (fun st => t_n0 (fst (fst st)) = t_n0 (pb_t tgt))) in HF; [exact HF|reflexivity|] end.
  clear. intros mu [[D ro] so] [[D' ro'] so'] _ I H. cbn [fst snd] in *. inv H. inv H. inv H. destruct x2 as [c so1]. inv H. inv H. apply Ret_inj in H. injection H as <- _ _. rewrite <- I. eapply block3_size; eassumption.
Qed.

Lemma acc_sizes F fuel b R offs x y R' o' b' : cgb_acc F fuel b R offs x y = Ret (R', o', b') ->
  map pb_b R' = map pb_b R /\ exists P R0, R = P :: R0 /\ pb_b x = pb_b P /\ pb_b y = pb_b P.
Proof.
  destruct fuel as [|f]; [discriminate|]. cbn [cgb_acc]. intros H. inv H. rename x0 into bR. inv H. rename x0 into nb.
  assert (exists P R0, R = P :: R0 /\ pb_b x = pb_b P /\ pb_b y = pb_b P) as S.
  { destruct R as [|P R0]; [discriminate|]. exists P, R0. cbn in E. apply Ret_inj in E. subst bR. unfold sameb3, assert_ in E0.
    destruct (pb_b P =? pb_b x) eqn:E1; [|discriminate]. cbn in E0. destruct (pb_b P =? pb_b y) eqn:E2; [|discriminate]. apply Z.eqb_eq in E1, E2. auto. }
  split; [|exact S]. clear S. inv H. destruct (io_n (pb_irr x) =? 1).
  - inv H. inv H. apply Ret_inj in H. injection H as <- _ _. unfold zfor in E2.
    apply (foldM_pinv (fun R1 => map pb_b R1 = map pb_b R)) in E2; [exact E2|reflexivity|]. clear. intros k s s' _ I H.
    apply (foldM_pinv (fun R1 => map pb_b R1 = map pb_b R)) in H; [exact H|exact I|]. clear. intros i s s' _ I H.
    apply (foldM_pinv (fun R1 => map pb_b R1 = map pb_b R)) in H; [exact H|exact I|]. clear. intros j s s' _ I H.
    inv H. inv H. inv H. inv H. rewrite <- I. eapply wr_sizes; [eassumption| |eassumption]. unfold pb_b at 1. cbn [pb_t]. eapply tinc_size; eassumption.
  - inv H. inv H. inv H. destruct x3 as [sub b1]. inv H. destruct x3 as [fs b2]. inv H. inv H. destruct x4 as [t b3]. inv H. destruct x4 as [R1 o1]. apply Ret_inj in H. injection H as <- _ _. eapply up_sizes; eassumption.
Qed.

Lemma nested_sizes F (g : partb -> nat) ys : forall xs st R' o' b', let '(R, o, b) := st in
  foldM (fun p st => foldM (fun q st => let '(R, offs, b) := st in cgb_acc F (g p) b R offs p q) ys st) xs (R, o, b) = Ret (R', o', b') ->
  map pb_b R' = map pb_b R /\ forall p q, In p xs -> In q ys -> exists P R0, map pb_b R = pb_b P :: R0 /\ pb_b p = pb_b P /\ pb_b q = pb_b P.
Proof.
  intros xs [[R o] b] R' o' b' H. split.
  - apply (foldM_pinv (fun st => map pb_b (fst (fst st)) = map pb_b R)) in H; [exact H|reflexivity|]. clear. intros p s s' _ I H.
    apply (foldM_pinv (fun st => map pb_b (fst (fst st)) = map pb_b R)) in H; [exact H|exact I|]. clear. intros q [[R1 o1] b1] [[R2 o2] b2] _ I H. apply acc_sizes in H. cbn [fst] in *. rewrite (proj1 H). exact I.
  - intros p q Hp Hq.
    assert (forall l st st', map pb_b (fst (fst st)) = map pb_b R -> foldM (fun q st => let '(R, offs, b) := st in cgb_acc F (g p) b R offs p q) l st = Ret st' ->
      map pb_b (fst (fst st')) = map pb_b R /\ (In q l -> exists P R0, map pb_b R = pb_b P :: R0 /\ pb_b p = pb_b P /\ pb_b q = pb_b P)) as A.
    { clear. induction l as [|q1 l IH]; intros [[R1 o1] b1] st' I H; cbn [foldM] in H.
      - apply Ret_inj in H. subst. split; [exact I|intros []].
      - inv H. destruct x as [[R2 o2] b2]. apply acc_sizes in E. destruct E as (E1 & P & R0 & E2 & E3 & E4). cbn [fst] in *.
        destruct (IH (R2, o2, b2) st') as (J1 & J2); [cbn [fst]; congruence|exact H|]. split; [exact J1|]. intros [<-|Hq]; [|auto]. exists P, (map pb_b R0). split; [rewrite <- I, E2; reflexivity|auto]. }
    assert (forall l st st', map pb_b (fst (fst st)) = map pb_b R -> In p l -> foldM (fun p st => foldM (fun q st => let '(R, offs, b) := st in cgb_acc F (g p) b R offs p q) ys st) l st = Ret st' ->
      exists P R0, map pb_b R = pb_b P :: R0 /\ pb_b p = pb_b P /\ pb_b q = pb_b P) as B.
    { clear - A Hq. induction l as [|p1 l IH]; intros st st' I Hp H; [destruct Hp|]. cbn [foldM] in H. inv H. destruct Hp as [->|Hp].
      - destruct (A ys st x I E) as (_ & A2). auto.
      - apply (IH x st'); [|exact Hp|exact H]. apply (foldM_pinv (fun st => map pb_b (fst (fst st)) = map pb_b R)) in E; [exact E|exact I|]. clear. intros q1 [[R1 o1] b1] [[R2 o2] b2] _ I H. apply acc_sizes in H. cbn [fst] in *. rewrite (proj1 H). exact I. }
    eapply (B xs (R, o, b)); [reflexivity|exact Hp|exact H].
Qed.

Theorem one_size F b x y r : bvrun F [BVec x y] b = Ret r -> exists nb, size_is nb x /\ size_is nb y.
Proof.
  unfold bvrun, bvstep, cgb_vec, cgb_vec_with. intros H. inv H. clear H. inv E. clear E. inv E0. inv E0. inv E0. inv E0. inv E0. inv E0. destruct x7 as [t b1]. inv E0.
  unfold cgb_add in E0. inv E0. destruct x8 as [[R1 o1] b2]. clear E0. rename x7 into Rz.
  apply (nested_sizes F (fun p => Z.to_nat (io_n (pb_irr p))) y x (Rz, [], b1)) in E7. destruct E7 as (_ & N).
  destruct x as [|p0 x]; [discriminate|]. destruct y as [|q0 y]; [discriminate|].
  destruct (N p0 q0 (or_introl eq_refl) (or_introl eq_refl)) as (P0 & R0 & M0 & _ & _). exists (pb_b P0). split.
  - intros p Hp. destruct (N p q0 Hp (or_introl eq_refl)) as (P1 & R2 & M1 & E1' & _). rewrite M0 in M1. injection M1 as M1 _. change (pb_b p = pb_b P0). congruence.
  - intros q Hq. destruct (N p0 q (or_introl eq_refl) Hq) as (P1 & R2 & M1 & _ & E1'). rewrite M0 in M1. injection M1 as M1 _. change (pb_b q = pb_b P0). congruence.
Qed.
