(* Lemmas about the permutation model. *)
From Coq Require Import ZArith List Bool Lia ZifyBool ZifyNat.
From Verif Require Import Model_Base Model_Perm Spec_Perm Proof_Base.
Import ListNotations.
Open Scope Z_scope.

(* position of the first v in l *)
Fixpoint idx (v : Z) (l : list Z) : Z :=
  match l with
  | [] => 0
  | x :: l' => if x =? v then 0 else idx v l' + 1
  end.

Lemma idx_nonneg v l : 0 <= idx v l.
Proof. induction l as [|x l IH]; simpl; [lia|]. destruct (x =? v); lia. Qed.

Lemma idx_In v l : In v l -> 0 <= idx v l < zlen l /\ znth l (idx v l) 0 = v.
Proof.
  induction l as [|x l IH]; intros H; [destruct H|]. rewrite zlen_cons. simpl idx.
  destruct (Z.eqb_spec x v) as [->|Hne].
  - split; [pose proof (zlen_nonneg l); lia|reflexivity].
  - destruct H as [H|H]; [contradiction|]. destruct (IH H) as (B & E).
    split; [lia|]. rewrite znth_cons by lia. destruct (Z.eqb_spec (idx v l + 1) 0); [lia|].
    replace (idx v l + 1 - 1) with (idx v l) by lia. exact E.
Qed.

Lemma idx_znth l i : NoDup l -> 0 <= i < zlen l -> idx (znth l i 0) l = i.
Proof.
  intros HN Hi. destruct (idx_In (znth l i 0) l) as (B & E); [apply znth_In; lia|].
  apply NoDup_znth with (l := l) (d := 0); auto.
Qed.

Lemma idx_notin v l : ~ In v l -> idx v l = zlen l.
Proof.
  induction l as [|x l IH]; intros H; [reflexivity|]. rewrite zlen_cons. simpl.
  destruct (Z.eqb_spec x v); [exfalso; apply H; left; auto|]. rewrite IH; auto.
  intros K; apply H; right; auto.
Qed.

(* ---- is_perm ---- *)

Lemma is_perm_len n p : is_perm n p -> zlen p = n.
Proof. intros (H & _). exact H. Qed.

Lemma is_perm_nonneg n p : is_perm n p -> 0 <= n.
Proof. intros H. rewrite <- (is_perm_len _ _ H). apply zlen_nonneg. Qed.

Lemma is_perm_onto n p v : is_perm n p -> 1 <= v <= n -> In v p.
Proof.
  intros (HL & HR & HN) Hv.
  assert (incl (zrange 1 (n + 1)) p) as HI; [|apply HI, in_zrange; lia].
  apply NoDup_length_incl; auto.
  - rewrite zrange_length. lia.
  - intros w Hw. apply HR in Hw. apply in_zrange. lia.
Qed.

Lemma is_perm_img n p i : is_perm n p -> 1 <= i <= n -> 1 <= img p i <= n.
Proof.
  intros (HL & HR & HN) Hi. apply HR. apply (znth_In p (i - 1) 0). unfold zlen; lia.
Qed.

Lemma img_inj n p i j : is_perm n p -> 1 <= i <= n -> 1 <= j <= n -> img p i = img p j -> i = j.
Proof.
  intros (HL & HR & HN) Hi Hj E.
  assert (i - 1 = j - 1); [|lia].
  apply NoDup_znth with (l := p) (d := 0); auto; unfold zlen; lia.
Qed.

Lemma perm_ext n p q : zlen p = n -> zlen q = n ->
  (forall i, 1 <= i <= n -> img p i = img q i) -> p = q.
Proof.
  intros Hp Hq H. apply list_ext with (d := 0); [lia|].
  intros i Hi. specialize (H (i + 1)). unfold img in H. unfold znth.
  replace (i + 1 - 1) with i in H by lia. apply H; lia.
Qed.

(* a list of length n with values in range, injective on positions, is a permutation *)
Lemma is_perm_intro n p : zlen p = n -> (forall i, 1 <= i <= n -> 1 <= img p i <= n) ->
  (forall i j, 1 <= i <= n -> 1 <= j <= n -> img p i = img p j -> i = j) -> is_perm n p.
Proof.
  intros HL HR HI. split; [exact HL|]. split.
  - intros v Hv. destruct (In_znth p v 0 Hv) as (i & Hi & <-).
    specialize (HR (i + 1)). unfold img in HR. replace (i + 1 - 1) with i in HR by lia.
    apply HR; lia.
  - apply NoDup_znth_intro with (d := 0). intros i j Hi Hj E.
    specialize (HI (i + 1) (j + 1)). unfold img in HI.
    replace (i + 1 - 1) with i in HI by lia. replace (j + 1 - 1) with j in HI by lia.
    assert (i + 1 = j + 1); [|lia]. apply HI; try lia. exact E.
Qed.

(* ---- pure versions ---- *)

Definition pid (n : Z) : list Z := ztab n (fun i => i + 1).
Definition pmul (p x : list Z) : list Z := map (img p) x.
Definition pinv (p : list Z) : list Z := ztab (zlen p) (fun j => idx (j + 1) p + 1).

Lemma img_ztab n f i : 1 <= i <= n -> img (ztab n f) i = f (i - 1).
Proof. intros H. change (znth (ztab n f) (i - 1) 0 = f (i - 1)). apply znth_ztab. lia. Qed.

Lemma img_pid n i : 1 <= i <= n -> img (pid n) i = i.
Proof. intros H. unfold pid. rewrite img_ztab by lia. lia. Qed.

Lemma img_pmul p x i : 1 <= i <= zlen x -> img (pmul p x) i = img p (img x i).
Proof.
  intros H. change (znth (map (img p) x) (i - 1) 0 = img p (znth x (i - 1) 0)).
  apply znth_map. lia.
Qed.

Lemma zlen_pmul p x : zlen (pmul p x) = zlen x.
Proof. apply zlen_map. Qed.

Lemma zlen_pid n : 0 <= n -> zlen (pid n) = n.
Proof. apply zlen_ztab. Qed.

Lemma zlen_pinv p : zlen (pinv p) = zlen p.
Proof. apply zlen_ztab, zlen_nonneg. Qed.

Lemma is_perm_pid n : 0 <= n -> is_perm n (pid n).
Proof.
  intros Hn. apply is_perm_intro; [apply zlen_pid; auto| |]; intros.
  - rewrite img_pid; lia.
  - rewrite !img_pid in *; lia.
Qed.

Lemma is_perm_pmul n p x : is_perm n p -> is_perm n x -> is_perm n (pmul p x).
Proof.
  intros Hp Hx. pose proof (is_perm_len _ _ Hx) as HL.
  apply is_perm_intro; [rewrite zlen_pmul; auto| |].
  - intros i Hi. rewrite img_pmul by lia. apply is_perm_img; auto. apply is_perm_img; auto.
  - intros i j Hi Hj. rewrite !img_pmul by lia. intros E.
    apply (img_inj n p) in E; auto using is_perm_img.
    apply (img_inj n x) in E; auto.
Qed.

Lemma img_pinv_l n p i : is_perm n p -> 1 <= i <= n -> img (pinv p) (img p i) = i.
Proof.
  intros Hp Hi. pose proof (is_perm_len _ _ Hp) as HL. pose proof (is_perm_img n p i Hp Hi).
  unfold pinv. rewrite img_ztab by lia. replace (img p i - 1 + 1) with (img p i) by lia.
  destruct Hp as (_ & _ & HN). change (img p i) with (znth p (i - 1) 0).
  rewrite idx_znth; auto; lia.
Qed.

Lemma img_pinv_r n p i : is_perm n p -> 1 <= i <= n -> img p (img (pinv p) i) = i.
Proof.
  intros Hp Hi. pose proof (is_perm_len _ _ Hp) as HL.
  unfold pinv. rewrite img_ztab by lia. replace (i - 1 + 1) with i by lia.
  destruct (idx_In i p) as (B & E); [eapply is_perm_onto; eauto|].
  change (znth p (idx i p + 1 - 1) 0 = i). replace (idx i p + 1 - 1) with (idx i p) by lia. exact E.
Qed.

Lemma img_pinv_range n p i : is_perm n p -> 1 <= i <= n -> 1 <= img (pinv p) i <= n.
Proof.
  intros Hp Hi. pose proof (is_perm_len _ _ Hp) as HL.
  unfold pinv. rewrite img_ztab by lia. replace (i - 1 + 1) with i by lia.
  destruct (idx_In i p) as (B & E); [eapply is_perm_onto; eauto|]. lia.
Qed.

Lemma is_perm_pinv n p : is_perm n p -> is_perm n (pinv p).
Proof.
  intros Hp. apply is_perm_intro.
  - rewrite zlen_pinv. apply is_perm_len; auto.
  - intros; apply img_pinv_range; auto.
  - intros i j Hi Hj E. rewrite <- (img_pinv_r n p i), <- (img_pinv_r n p j) by auto. congruence.
Qed.

Lemma pmul_assoc n p q r : is_perm n p -> is_perm n q -> is_perm n r ->
  pmul (pmul p q) r = pmul p (pmul q r).
Proof.
  intros Hp Hq Hr. pose proof (is_perm_len _ _ Hr). pose proof (is_perm_len _ _ Hq).
  apply perm_ext with (n := n); rewrite ?zlen_pmul; auto.
  intros i Hi. pose proof (is_perm_img n r i Hr Hi).
  rewrite !img_pmul; rewrite ?zlen_pmul; lia.
Qed.

Lemma pmul_pid_l n p : is_perm n p -> pmul (pid n) p = p.
Proof.
  intros Hp. pose proof (is_perm_len _ _ Hp).
  apply perm_ext with (n := n); rewrite ?zlen_pmul; auto.
  intros i Hi. rewrite img_pmul by lia. apply img_pid. apply is_perm_img; auto.
Qed.

Lemma pmul_pid_r n p : is_perm n p -> pmul p (pid n) = p.
Proof.
  intros Hp. pose proof (is_perm_len _ _ Hp). pose proof (is_perm_nonneg _ _ Hp).
  apply perm_ext with (n := n); rewrite ?zlen_pmul, ?zlen_pid; auto.
  intros i Hi. rewrite img_pmul by (rewrite zlen_pid; lia). rewrite img_pid by lia. reflexivity.
Qed.

Lemma pmul_pinv_r n p : is_perm n p -> pmul p (pinv p) = pid n.
Proof.
  intros Hp. pose proof (is_perm_len _ _ Hp). pose proof (is_perm_nonneg _ _ Hp).
  apply perm_ext with (n := n); rewrite ?zlen_pmul, ?zlen_pinv, ?zlen_pid; auto.
  intros i Hi. rewrite img_pmul by (rewrite zlen_pinv; lia). rewrite img_pid by lia.
  apply img_pinv_r with (n := n); auto.
Qed.

Lemma pmul_pinv_l n p : is_perm n p -> pmul (pinv p) p = pid n.
Proof.
  intros Hp. pose proof (is_perm_len _ _ Hp). pose proof (is_perm_nonneg _ _ Hp).
  apply perm_ext with (n := n); rewrite ?zlen_pmul, ?zlen_pinv, ?zlen_pid; auto.
  intros i Hi. rewrite img_pmul by lia. rewrite img_pid by lia.
  apply img_pinv_l with (n := n); auto.
Qed.

(* uniqueness of inverses *)
Lemma pinv_unique n p q : is_perm n p -> is_perm n q -> pmul p q = pid n -> q = pinv p.
Proof.
  intros Hp Hq E.
  rewrite <- (pmul_pid_l n q) by auto. rewrite <- (pmul_pinv_l n p) by auto.
  rewrite (pmul_assoc n) by auto using is_perm_pinv. rewrite E.
  apply pmul_pid_r with (n := n). apply is_perm_pinv; auto.
Qed.

Lemma pinv_involutive n p : is_perm n p -> pinv (pinv p) = p.
Proof.
  intros Hp. symmetry. apply pinv_unique with (n := n); auto using is_perm_pinv.
  apply pmul_pinv_l; auto.
Qed.

Lemma pinv_pmul n p q : is_perm n p -> is_perm n q -> pinv (pmul p q) = pmul (pinv q) (pinv p).
Proof.
  intros Hp Hq. symmetry. apply pinv_unique with (n := n); auto using is_perm_pinv, is_perm_pmul.
  rewrite pmul_assoc with (n := n); auto using is_perm_pinv, is_perm_pmul.
  rewrite <- (pmul_assoc n q); auto using is_perm_pinv, is_perm_pmul.
  rewrite pmul_pinv_r with (n := n) by auto.
  rewrite pmul_pid_l with (n := n) by auto using is_perm_pinv.
  apply pmul_pinv_r; auto.
Qed.

Lemma pinv_pid n : 0 <= n -> pinv (pid n) = pid n.
Proof.
  intros H. symmetry. apply pinv_unique with (n := n); auto using is_perm_pid.
  apply pmul_pid_l, is_perm_pid; auto.
Qed.

(* ---- refinement of the model functions to the pure versions ---- *)

(* a loop that fills cells lo..hi-1 *)
Lemma fill_loop n lo hi (f g : Z -> Z) (b : list (option Z)) :
  zlen b = n -> lo <= hi ->
  (forall i, lo <= i < hi -> 0 <= g i < n /\ forall j, lo <= j < hi -> g i = g j -> i = j) ->
  exists b', zfor lo hi (fun i b => wr b (g i) (Some (f i))) b = Ret b' /\ zlen b' = n /\
    (forall i, lo <= i < hi -> znth b' (g i) None = Some (f i)) /\
    (forall j, 0 <= j < n -> (forall i, lo <= i < hi -> g i <> j) -> znth b' j None = znth b j None).
Proof.
  intros HL Hle Hg.
  destruct (zfor_inv (fun k b' => zlen b' = n /\
      (forall i, lo <= i < k -> znth b' (g i) None = Some (f i)) /\
      (forall j, 0 <= j < n -> (forall i, lo <= i < k -> g i <> j) -> znth b' j None = znth b j None))
      lo hi (fun i b => wr b (g i) (Some (f i))) b) as (b' & E & HP); auto.
  - split; [auto|]. split; intros; try lia; auto.
  - intros i s Hi (H1 & H2 & H3). destruct (Hg i Hi) as (Hr & Hinj).
    exists (zupd s (g i) (Some (f i))). split; [apply wr_ok; lia|].
    split; [rewrite zlen_zupd; lia|]. split.
    + intros k Hk. destruct (Hg k) as (Hrk & Hinjk); [lia|].
      rewrite znth_zupd by lia. destruct (Z.eqb_spec (g k) (g i)) as [Ek|Nk].
      * f_equal. f_equal. apply Hinj; lia.
      * apply H2. assert (k <> i) by congruence. lia.
    + intros j Hj Hnot. rewrite znth_zupd by lia.
      destruct (Z.eqb_spec j (g i)) as [Ej|Nj]; [exfalso; apply (Hnot i); lia|].
      apply H3; auto. intros k Hk. apply Hnot. lia.
  - exists b'. tauto.
Qed.

Lemma p_identity_ok n : 0 <= n -> p_identity n = Ret (pid n).
Proof.
  intros Hn. unfold p_identity. rewrite alloc_ok by lia. simpl bind.
  destruct (fill_loop n 0 n (fun i => i + 1) (fun i => i) (repeat None (Z.to_nat n)))
    as (b & E & HL & HF & _).
  - rewrite zlen_repeat; lia.
  - lia.
  - intros; split; lia.
  - rewrite E. simpl bind. apply (freeze_fill _ _ 0); auto.
Qed.

Lemma p_identity_neg n : n < 0 -> p_identity n = Throw.
Proof. intros H. unfold p_identity, alloc. destruct (Z.ltb_spec n 0); [reflexivity|lia]. Qed.

Lemma p_of_vector_ok x : p_of_vector x = Ret x.
Proof.
  unfold p_of_vector. pose proof (zlen_nonneg x). rewrite alloc_ok by lia. simpl bind.
  destruct (zfor_inv (fun k b => zlen b = zlen x /\
      forall i, 0 <= i < k -> znth b i None = Some (znth x i 0)) 0 (zlen x)
      (fun i b => v <- rd x i ;; wr b i (Some v)) (repeat None (Z.to_nat (zlen x))))
    as (b & E & HL & HF).
  - lia.
  - split; [rewrite zlen_repeat; lia|intros; lia].
  - intros i s Hi (H1 & H2). rewrite (rd_ok x i 0) by lia. simpl bind.
    rewrite wr_ok by lia. eexists; split; [reflexivity|]. split; [rewrite zlen_zupd; lia|].
    intros j Hj. rewrite znth_zupd by lia. destruct (Z.eqb_spec j i); [subst; auto|].
    apply H2; lia.
  - rewrite E. simpl bind. apply freeze_ok with (d := 0); auto.
Qed.

Lemma p_mul_ok p x : zlen p = zlen x -> (forall v, In v x -> 1 <= v <= zlen p) ->
  p_mul p x = Ret (pmul p x).
Proof.
  intros HL HR. unfold p_mul. pose proof (zlen_nonneg p). rewrite alloc_ok by lia. simpl bind.
  destruct (zfor_inv (fun k b => zlen b = zlen p /\
      forall i, 0 <= i < k -> znth b i None = Some (img p (znth x i 0))) 0 (zlen p)
      (fun i b => v <- p_call x (i + 1) ;; w <- rd p (v - 1) ;; wr b i (Some w))
      (repeat None (Z.to_nat (zlen p))))
    as (b & E & HB & HF).
  - lia.
  - split; [rewrite zlen_repeat; lia|intros; lia].
  - intros i s Hi (H1 & H2). unfold p_call. replace (i + 1 - 1) with i by lia.
    rewrite (rd_ok x i 0) by lia. simpl bind.
    pose proof (HR (znth x i 0) (znth_In x i 0 ltac:(lia))).
    rewrite (rd_ok p _ 0) by lia. simpl bind.
    rewrite wr_ok by lia. eexists; split; [reflexivity|]. split; [rewrite zlen_zupd; lia|].
    intros j Hj. rewrite znth_zupd by lia. destruct (Z.eqb_spec j i); [subst; auto|].
    apply H2; lia.
  - rewrite E. simpl bind. apply freeze_ok with (d := 0).
    + rewrite zlen_pmul; lia.
    + intros i Hi. rewrite zlen_pmul in Hi. rewrite HF by lia. f_equal. symmetry.
      apply znth_map. lia.
Qed.

Lemma p_mul_perm n p x : is_perm n p -> is_perm n x -> p_mul p x = Ret (pmul p x).
Proof.
  intros Hp Hx. pose proof (is_perm_len _ _ Hp). pose proof (is_perm_len _ _ Hx).
  apply p_mul_ok; [lia|]. destruct Hx as (_ & HR & _). intros v Hv. apply HR in Hv. lia.
Qed.

Lemma p_mul_assign_ok n p x : is_perm n p -> is_perm n x -> p_mul_assign p x = Ret (pmul x p).
Proof.
  intros Hp Hx. pose proof (is_perm_len _ _ Hp). pose proof (is_perm_len _ _ Hx).
  unfold p_mul_assign. pose proof (zlen_nonneg p).
  destruct (zfor_inv (fun k b => zlen b = zlen p /\
      (forall i, 0 <= i < k -> znth b i 0 = img x (znth p i 0)) /\
      (forall i, k <= i < zlen p -> znth b i 0 = znth p i 0)) 0 (zlen p)
      (fun i p => v <- rd p i ;; w <- p_call x v ;; wr p i w) p)
    as (b & E & HB & HF & _).
  - lia.
  - split; [lia|]. split; intros; [lia|reflexivity].
  - intros i s Hi (H1' & H2' & H3'). rewrite (rd_ok s i 0) by lia. simpl bind.
    rewrite H3' by lia. unfold p_call.
    destruct Hp as (_ & HR & _).
    pose proof (HR (znth p i 0) (znth_In p i 0 ltac:(lia))).
    rewrite (rd_ok x _ 0) by lia. simpl bind.
    rewrite wr_ok by lia. eexists; split; [reflexivity|]. split; [rewrite zlen_zupd; lia|]. split.
    + intros j Hj. rewrite znth_zupd by lia. destruct (Z.eqb_spec j i); [subst; reflexivity|].
      apply H2'; lia.
    + intros j Hj. rewrite znth_zupd by lia. destruct (Z.eqb_spec j i); [lia|].
      apply H3'; lia.
  - rewrite E. f_equal. apply list_ext with (d := 0); [rewrite zlen_pmul; lia|].
    intros i Hi. rewrite HF by lia. symmetry. apply znth_map. lia.
Qed.

Lemma idx_bound n p j : is_perm n p -> 0 <= j < n -> 0 <= idx (j + 1) p < n /\ znth p (idx (j+1) p) 0 = j + 1.
Proof.
  intros Hp Hj. rewrite <- (is_perm_len _ _ Hp). apply idx_In.
  apply is_perm_onto with (n := n); auto. lia.
Qed.

Lemma p_inverse_ok n p : is_perm n p -> p_inverse p = Ret (pinv p).
Proof.
  intros Hp. pose proof (is_perm_len _ _ Hp) as HL. pose proof (is_perm_nonneg _ _ Hp).
  unfold p_inverse. rewrite alloc_ok by lia. simpl bind.
  destruct (zfor_inv (fun k b => zlen b = zlen p /\
      (forall j, 0 <= j < n -> idx (j + 1) p < k - 1 -> znth b j None = Some (idx (j + 1) p + 1)))
      1 (zlen p + 1)
      (fun i b => v <- rd p (i - 1) ;; wr b (v - 1) (Some i)) (repeat None (Z.to_nat (zlen p))))
    as (b & E & HB & HF).
  - lia.
  - split; [rewrite zlen_repeat; lia|]. intros j Hj Hk. pose proof (idx_nonneg (j+1) p). lia.
  - intros i s Hi (H1' & H2'). rewrite (rd_ok p (i - 1) 0) by lia. simpl bind.
    assert (1 <= znth p (i - 1) 0 <= n) as Hv by (apply (is_perm_img n p i); auto; lia).
    rewrite wr_ok by lia. eexists; split; [reflexivity|]. split; [rewrite zlen_zupd; lia|].
    intros j Hj Hk. rewrite znth_zupd by lia. destruct (Z.eqb_spec j (znth p (i - 1) 0 - 1)) as [Ej|Nj].
    + f_equal. replace (j + 1) with (znth p (i - 1) 0) by lia.
      destruct Hp as (_ & _ & HN). rewrite idx_znth; auto; lia.
    + apply H2'; auto. destruct (idx_bound n p j Hp Hj) as (B & Ez).
      assert (idx (j + 1) p <> i - 1); [|lia]. intros C. rewrite C in Ez. lia.
  - rewrite E. simpl bind. unfold pinv. apply (freeze_fill _ _ 0); auto.
    intros i Hi. apply HF; [lia|]. destruct (idx_bound n p i Hp); lia.
Qed.

Lemma p_not_ok n p : is_perm n p -> p_not p = Ret (pinv p).
Proof.
  intros Hp. rewrite <- (p_inverse_ok n p Hp). unfold p_not, p_inverse.
  destruct (alloc (zlen p)) as [b| | |]; simpl bind; try reflexivity.
  match goal with |- bind ?x _ = bind ?y _ => assert (x = y) as -> end; [|reflexivity].
  unfold zfor. replace (zrange 1 (zlen p + 1)) with (map (fun i => i + 1) (zrange 0 (zlen p))).
  - generalize b as b0. generalize (zrange 0 (zlen p)). intros l. induction l as [|i l IH]; intros b0; [reflexivity|].
    simpl. replace (i + 1 - 1) with i by lia.
    destruct (rd p i); simpl; auto. destruct (wr b0 (a - 1) (Some (i + 1))); simpl; auto.
  - unfold zrange. rewrite map_map. replace (zlen p + 1 - 1) with (zlen p - 0) by lia.
    apply map_ext; intros; lia.
Qed.

(* inverse is free of undefined behaviour exactly on permutations *)
Lemma p_inverse_defined p r : p_inverse p = Ret r -> is_perm (zlen p) p.
Proof.
  unfold p_inverse. pose proof (zlen_nonneg p). rewrite alloc_ok by lia. simpl bind.
  set (body := fun i b => v <- rd p (i - 1) ;; wr b (v - 1) (Some i)).
  intros H0. apply bind_inv in H0. destruct H0 as (b & E & F).
  assert (forall k b, 0 <= k <= zlen p -> zfor 1 (k + 1) body (repeat None (Z.to_nat (zlen p))) = Ret b ->
     zlen b = zlen p /\ (forall i, 0 <= i < k -> 1 <= znth p i 0 <= zlen p) /\
     (forall j x, 0 <= j < zlen p -> znth b j None = Some x -> In (j + 1) (firstn (Z.to_nat k) p))) as G.
  { intros k; remember (Z.to_nat k) as m eqn:Em. revert k Em.
    induction m as [|m IH]; intros k Em b0 Hk E0.
    - assert (k = 0) by lia; subst k. rewrite zfor_nil in E0 by lia. inv E0.
      rewrite zlen_repeat. split; [lia|]. split; [intros; lia|].
      intros j x Hj Hx. rewrite znth_repeat in Hx by lia. discriminate.
    - replace (k + 1) with (k - 1 + 1 + 1) in E0 by lia. rewrite zfor_snoc in E0 by lia.
      apply bind_inv in E0. destruct E0 as (b1 & E1 & E2).
      destruct (IH (k - 1) ltac:(lia) b1 ltac:(lia) E1) as (L1 & R1 & S1).
      unfold body in E2. apply bind_inv in E2. destruct E2 as (v & E2 & E3).
      rewrite (rd_ok p _ 0) in E2 by lia. inv E2.
      replace (k - 1 + 1 - 1) with (k - 1) in * by lia.
      destruct (Z_le_dec 1 (znth p (k - 1) 0)); [destruct (Z_le_dec (znth p (k - 1) 0) (zlen p))|];
        try (rewrite wr_out in E3 by lia; discriminate).
      rewrite wr_ok in E3 by lia. inv E3. split; [rewrite zlen_zupd; lia|]. split.
      + intros i Hi. destruct (Z.eq_dec i (k - 1)); [subst; lia|apply R1; lia].
      + intros j x Hj Hx. rewrite znth_zupd in Hx by lia.
        assert (firstn (S m) p = firstn m p ++ [znth p (k - 1) 0]) as Efn.
        { unfold znth. replace (Z.to_nat (k - 1)) with m by lia.
          assert (m < length p)%nat as Hm by (unfold zlen in *; lia).
          clear - Hm. revert p Hm; induction m as [|m IH]; intros p Hm; destruct p; simpl in *; try lia; auto.
          f_equal. apply IH. lia. }
        rewrite Efn. apply in_or_app. destruct (Z.eqb_spec j (znth p (k - 1) 0 - 1)).
        * right. left. lia.
        * left. eapply S1; eauto. }
  destruct (G (zlen p) b) as (L & R & S); [lia| |].
  { exact E. }
  assert (incl (zrange 1 (zlen p + 1)) p) as Hincl.
  { intros v Hv. apply in_zrange in Hv.
    assert (exists x, znth b (v - 1) None = Some x) as (x & Hx).
    { assert (0 <= v - 1 < zlen b) as Hvb by lia. revert Hvb F. generalize (v - 1). clear.
      revert r; induction b as [|c b IH]; intros r i Hi F; [unfold zlen in Hi; simpl in Hi; lia|].
      rewrite zlen_cons in Hi. simpl in F. destruct c as [c|]; [|discriminate].
      apply bind_inv in F. destruct F as (t & F1 & F2).
      rewrite znth_cons by lia. destruct (Z.eqb_spec i 0); [eauto|]. eapply IH; eauto. lia. }
    assert (In v (firstn (Z.to_nat (zlen p)) p)) as Hin.
    { replace v with (v - 1 + 1) by lia. eapply S; eauto. lia. }
    rewrite <- (firstn_skipn (Z.to_nat (zlen p)) p). apply in_or_app. left; exact Hin. }
  split; [reflexivity|]. split.
  - intros v Hv. destruct (In_znth p v 0 Hv) as (i & Hi & <-). apply R; lia.
  - apply NoDup_incl_NoDup with (l := zrange 1 (zlen p + 1)); auto using NoDup_zrange.
    rewrite zrange_length. unfold zlen; lia.
Qed.

(* ---- check_valid ---- *)

Lemma p_check_valid_ok p :
  exists b, p_check_valid p = Ret b /\ (b = true <-> is_perm (zlen p) p).
Proof.
  unfold p_check_valid. set (n := zlen p).
  assert (forall k, 0 <= k <= n -> forall a : list bool, zlen a = n ->
     (forall v, 1 <= v <= n -> znth a (v - 1) false = true <-> In v (firstn (Z.to_nat k) p)) ->
     (forall v, In v (firstn (Z.to_nat k) p) -> 1 <= v <= n) -> NoDup (firstn (Z.to_nat k) p) ->
     (exists a', zforb k n
         (fun i (a : list bool) =>
            v <- rd p i ;;
            if (v <? 1) || (v >? n) then Ret (inr false)
            else
              q <- rd a (v - 1) ;;
              if q then Ret (inr false)
              else a' <- wr a (v - 1) true ;; Ret (inl a')) a = Ret (inl a') /\
        (forall v, In v p -> 1 <= v <= n) /\ NoDup p) \/
     (zforb k n
         (fun i (a : list bool) =>
            v <- rd p i ;;
            if (v <? 1) || (v >? n) then Ret (inr false)
            else
              q <- rd a (v - 1) ;;
              if q then Ret (inr false)
              else a' <- wr a (v - 1) true ;; Ret (inl a')) a = Ret (inr false) /\ ~ is_perm n p)) as G.
  { intros k Hk. remember (Z.to_nat (n - k)) as m eqn:Em. revert k Hk Em.
    induction m as [|m IH]; intros k Hk Em a HLa HA HR HN.
    - assert (k = n) by lia; subst k. left. exists a. rewrite zforb_nil by lia.
      assert (firstn (Z.to_nat n) p = p) as Ef.
      { apply firstn_all2. unfold n, zlen. lia. }
      rewrite Ef in *. auto.
    - rewrite zforb_cons by lia. rewrite (rd_ok p k 0) by (fold n; lia).
      cbn [bind]. set (v := znth p k 0) in *.
      assert (firstn (S (Z.to_nat k)) p = firstn (Z.to_nat k) p ++ [v]) as Efn.
      { unfold v, znth. assert (Z.to_nat k < length p)%nat as Hm by (unfold n, zlen in *; lia).
        revert Hm. generalize (Z.to_nat k). clear. intros m. revert p. induction m as [|m IH]; intros p Hm; destruct p; simpl in *; try lia; auto.
        f_equal. apply IH. lia. }
      destruct (Z.ltb_spec v 1); [|destruct (Z.gtb_spec v n)]; cbn [orb bind].
      + right. split; [reflexivity|]. intros (_ & B & _).
        assert (1 <= v <= n); [|lia]. apply B. apply znth_In. fold n; lia.
      + right. split; [reflexivity|]. intros (_ & B & _).
        assert (1 <= v <= n); [|lia]. apply B. apply znth_In. fold n; lia.
      + rewrite (rd_ok a (v - 1) false) by lia. cbn [bind].
        destruct (znth a (v - 1) false) eqn:Ea; cbn [bind].
        * right. split; [reflexivity|]. intros (_ & _ & N).
          apply HA in Ea; [|lia].
          rewrite <- (firstn_skipn (S (Z.to_nat k)) p), Efn in N.
          rewrite <- app_assoc in N. simpl in N. apply NoDup_remove_2 in N.
          apply N. apply in_or_app. left; exact Ea.
        * rewrite wr_ok by lia. cbn [bind].
          assert (S (Z.to_nat k) = Z.to_nat (k + 1)) as ES by lia. rewrite ES in Efn.
          apply IH; try lia.
          -- rewrite zlen_zupd; lia.
          -- intros w Hw. rewrite znth_zupd by lia. rewrite Efn, in_app_iff.
             destruct (Z.eqb_spec (w - 1) (v - 1)).
             ++ split; auto. intros _. right; left; lia.
             ++ rewrite HA by lia. split; auto. intros [K|[K|[]]]; auto. lia.
          -- rewrite Efn. intros w Hw. apply in_app_iff in Hw. destruct Hw as [Hw|[<-|[]]]; auto; lia.
          -- rewrite Efn.
             clear - HN HA Ea H H0.
             assert (~ In v (firstn (Z.to_nat k) p)) as Nv.
             { intros K. apply HA in K; [|lia]. congruence. }
             revert HN Nv. generalize (firstn (Z.to_nat k) p). clear. intros l HN Nv.
             induction l as [|x l IH]; simpl; [constructor; auto; constructor|].
             inv HN. constructor.
             ++ rewrite in_app_iff. intros [K|[K|[]]]; auto. subst. apply Nv; left; auto.
             ++ apply IH; auto. intros K; apply Nv; right; auto. }
  destruct (G 0) with (a := repeat false (length p)) as [(a' & E & R & N)|(E & N)].
  - unfold n. pose proof (zlen_nonneg p). lia.
  - rewrite zlen_repeat. reflexivity.
  - intros v Hv. rewrite znth_repeat; [|unfold n, zlen in *; lia]. simpl. split; [discriminate|tauto].
  - simpl. tauto.
  - simpl. constructor.
  - fold n in E. rewrite E. exists true. split; [reflexivity|]. split; auto.
    intros _. split; [reflexivity|]. auto.
  - fold n in E. rewrite E. exists false. split; [reflexivity|]. split; [discriminate|tauto].
Qed.

(* ---- equality ---- *)

Lemma p_eq_ok p x : exists b, p_eq p x = Ret b /\ (b = true <-> p = x).
Proof.
  unfold p_eq. destruct (Z.eqb_spec (zlen p) (zlen x)) as [E|E]; cbn [negb].
  2:{ exists false. split; [reflexivity|]. split; [discriminate|]. intros ->. contradiction. }
  set (body := fun i (_ : unit) => _).
  destruct (zforb_inv (fun k (_ : unit) => forall i, 0 <= i < k -> znth p i 0 = znth x i 0)
      (fun r => r = false /\ p <> x) 0 (zlen p) body tt) as [([] & F & H)|(r & F & -> & H)].
  - apply zlen_nonneg.
  - intros; lia.
  - intros i [] Hi HI. unfold body. rewrite (rd_ok p i 0), (rd_ok x i 0) by lia. cbn [bind].
    destruct (Z.eqb_spec (znth p i 0) (znth x i 0)); cbn [negb].
    + left. exists tt. split; [reflexivity|]. intros j Hj. destruct (Z.eq_dec j i); [subst; auto|apply HI; lia].
    + right. exists false. split; [reflexivity|]. split; [reflexivity|]. congruence.
  - rewrite F. cbn [bind]. exists true. split; [reflexivity|]. split; auto. intros _.
    apply list_ext with (d := 0); auto.
  - rewrite F. cbn [bind]. exists false. split; [reflexivity|]. split; [discriminate|contradiction].
Qed.

(* deciding is_perm by computation *)
Lemma check_is_perm p : p_check_valid p = Ret true -> is_perm (zlen p) p.
Proof. intros H. destruct (p_check_valid_ok p) as (b & E & K). apply K. congruence. Qed.
