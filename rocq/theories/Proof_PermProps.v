(* The permutation properties in the form in which Prop_Perm states them. *)
From Coq Require Import ZArith List Bool Lia ZifyBool ZifyNat.
From Verif Require Import Model_Base Model_Perm Spec_Perm Proof_Base Proof_Perm Proof_Cycles.
Import ListNotations.
Open Scope Z_scope.

Lemma mul_is_composition n p x : is_perm n p -> is_perm n x ->
  exists r, p_mul p x = Ret r /\ is_perm n r /\ forall i, 1 <= i <= n -> img r i = img p (img x i).
Proof.
  intros Hp Hx. exists (pmul p x). split; [apply (p_mul_perm n); auto|].
  split; [apply is_perm_pmul; auto|]. intros i Hi. apply img_pmul.
  rewrite (is_perm_len n x) by auto. lia.
Qed.

Lemma mul_assoc n p q r : is_perm n p -> is_perm n q -> is_perm n r ->
  exists pq qr s, p_mul p q = Ret pq /\ p_mul q r = Ret qr /\ p_mul pq r = Ret s /\ p_mul p qr = Ret s.
Proof.
  intros Hp Hq Hr. exists (pmul p q), (pmul q r), (pmul (pmul p q) r).
  repeat split; try (apply (p_mul_perm n); auto using is_perm_pmul).
  rewrite (pmul_assoc n) by auto. apply (p_mul_perm n); auto using is_perm_pmul.
Qed.

Lemma mul_identity n : 0 <= n ->
  exists e, p_identity n = Ret e /\ is_perm n e /\ (forall i, 1 <= i <= n -> img e i = i) /\
    forall p, is_perm n p -> p_mul e p = Ret p /\ p_mul p e = Ret p.
Proof.
  intros Hn. exists (pid n). split; [apply p_identity_ok; auto|].
  split; [apply is_perm_pid; auto|]. split; [intros; apply img_pid; auto|].
  intros p Hp. rewrite !(p_mul_perm n) by auto using is_perm_pid.
  rewrite (pmul_pid_l n), (pmul_pid_r n) by auto. auto.
Qed.

Lemma inverse_laws n p : is_perm n p ->
  exists q e, p_inverse p = Ret q /\ p_inv p = Ret q /\ p_not p = Ret q /\ is_perm n q /\
    p_identity n = Ret e /\ p_mul p q = Ret e /\ p_mul q p = Ret e /\ p_inverse q = Ret p /\
    forall i, 1 <= i <= n -> img q (img p i) = i.
Proof.
  intros Hp. pose proof (is_perm_nonneg _ _ Hp). pose proof (is_perm_pinv n p Hp) as Hq.
  exists (pinv p), (pid n).
  rewrite !(p_mul_perm n) by auto.
  rewrite (pmul_pinv_l n), (pmul_pinv_r n) by auto.
  repeat split; auto using p_identity_ok.
  - apply (p_inverse_ok n); auto.
  - apply (p_inverse_ok n); auto.
  - apply (p_not_ok n); auto.
  - apply Hq.
  - apply Hq; auto.
  - apply Hq; auto.
  - apply Hq.
  - rewrite (p_inverse_ok n) by auto. f_equal. apply (pinv_involutive n); auto.
  - intros i Hi. apply (img_pinv_l n); auto.
Qed.

Lemma inverse_product n p q : is_perm n p -> is_perm n q ->
  exists pq ip iq r, p_mul p q = Ret pq /\ p_inverse p = Ret ip /\ p_inverse q = Ret iq /\
    p_inverse pq = Ret r /\ p_mul iq ip = Ret r.
Proof.
  intros Hp Hq. exists (pmul p q), (pinv p), (pinv q), (pinv (pmul p q)).
  rewrite !(p_mul_perm n), !(p_inverse_ok n) by auto using is_perm_pinv, is_perm_pmul.
  rewrite (pinv_pmul n) by auto. auto.
Qed.

Lemma mul_assign_is_opposite n p x : is_perm n p -> is_perm n x -> p_mul_assign p x = p_mul x p.
Proof. intros Hp Hx. rewrite (p_mul_assign_ok n), (p_mul_perm n) by auto. reflexivity. Qed.

Lemma mul_assign_wrong : exists p x, is_perm 3 p /\ is_perm 3 x /\
  p_mul_assign p x = Ret [1; 3; 2] /\ p_mul p x = Ret [3; 2; 1].
Proof.
  exists [2;1;3], [3;1;2].
  split; [apply (check_is_perm [2;1;3]); reflexivity|].
  split; [apply (check_is_perm [3;1;2]); reflexivity|]. split; reflexivity.
Qed.

Lemma mul_assign_iff_commute n p x : is_perm n p -> is_perm n x ->
  (p_mul_assign p x = p_mul p x <-> p_mul p x = p_mul x p).
Proof. intros Hp Hx. rewrite (mul_assign_is_opposite n) by auto. split; congruence. Qed.

Lemma transposition_spec n i j : 1 <= i <= n -> 1 <= j <= n ->
  exists t, p_transposition n i j = Ret t /\ p_of_transposition n (mkTransp i j) = Ret t /\
    is_perm n t /\ img t i = j /\ img t j = i /\
    forall k, 1 <= k <= n -> k <> i -> k <> j -> img t k = k.
Proof.
  intros Hi Hj. exists (ptransp n i j).
  split; [apply p_transposition_ok; auto|]. split; [apply p_of_transposition_ok; auto|].
  split; [apply is_perm_ptransp; auto|].
  rewrite !img_ptransp by lia. split; [unf|]. split; [unf|].
  intros k Hk H1 H2. rewrite img_ptransp by lia. unf.
Qed.

Lemma cycle_spec n a b : 1 <= a -> a <= b -> b <= n ->
  exists c, p_contiguous_cycle n a b = Ret c /\ is_perm n c /\
    (forall k, a <= k < b -> img c k = k + 1) /\ img c b = a /\
    (forall k, 1 <= k <= n -> k < a \/ b < k -> img c k = k).
Proof.
  intros Ha Hab Hb. exists (pcyc n a b).
  split; [apply p_contiguous_cycle_ok; lia|]. split; [apply is_perm_pcyc; lia|].
  split; [|split].
  - intros k Hk. rewrite img_pcyc by lia. unf.
  - rewrite img_pcyc by lia. unf.
  - intros k Hk HH. rewrite img_pcyc by lia. unf.
Qed.

Lemma cycle_reverse_is_inverse n a b : 1 <= a <= n -> 1 <= b <= n ->
  exists c d, p_contiguous_cycle n a b = Ret c /\ p_contiguous_cycle n b a = Ret d /\
    is_perm n d /\ p_inverse c = Ret d.
Proof.
  intros Ha Hb. exists (pcyc n a b), (pcyc n b a).
  rewrite !p_contiguous_cycle_ok by lia. split; [auto|]. split; [auto|].
  split; [apply is_perm_pcyc; auto|].
  rewrite (p_inverse_ok n) by (apply is_perm_pcyc; auto). f_equal. symmetry.
  apply (pinv_unique n); auto using is_perm_pcyc. apply pcyc_inverse; auto.
Qed.

Lemma cycle_is_product n a b : 1 <= a -> a <= b -> b <= n ->
  exists e c, p_identity n = Ret e /\ p_contiguous_cycle n a b = Ret c /\
    foldM (fun i acc => t <- p_transposition n i (i + 1) ;; p_mul acc t) (zrange a b) e = Ret c.
Proof.
  intros Ha Hab Hb. exists (pid n), (pcyc n a b).
  split; [apply p_identity_ok; lia|]. split; [apply p_contiguous_cycle_ok; lia|].
  apply cycle_product; lia.
Qed.

Lemma constructor_accepts_garbage :
  exists x, ~ is_perm (zlen x) x /\ p_of_vector x = Ret x /\ p_of_initializer x = Ret (x, true) /\
    p_inverse x = UB /\ p_mul x x = UB.
Proof.
  exists [2; 4; 1]. repeat split; try (vm_compute; reflexivity).
  intros (_ & H & _). specialize (H 4). cbn in H. lia.
Qed.

Lemma inverse_defined_iff p : (exists r, p_inverse p = Ret r) <-> is_perm (zlen p) p.
Proof.
  split; [intros (r & H); eapply p_inverse_defined; eauto|].
  intros H. exists (pinv p). eapply p_inverse_ok; eauto.
Qed.

Lemma initializer_message p : exists b, p_of_initializer p = Ret (p, b) /\ (b = false <-> is_perm (zlen p) p).
Proof.
  unfold p_of_initializer. rewrite p_of_vector_ok. cbn [bind].
  destruct (p_check_valid_ok p) as (c & E & H). rewrite E. cbn [bind].
  exists (negb c). split; [reflexivity|]. rewrite <- H. destruct c; simpl; intuition congruence.
Qed.
