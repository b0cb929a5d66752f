(* Transpositions and contiguous cycles. *)
From Coq Require Import ZArith List Bool Lia ZifyBool ZifyNat.
From Verif Require Import Model_Base Model_Perm Spec_Perm Proof_Base Proof_Perm.
Import ListNotations.
Open Scope Z_scope.

Definition tfun (i j x : Z) : Z := if x =? i then j else if x =? j then i else x.
Definition cfun (a b x : Z) : Z :=
  if a <? b then
    if (a <=? x) && (x <? b) then x + 1 else if x =? b then a else x
  else
    if (b <? x) && (x <=? a) then x - 1 else if x =? b then a else x.

Definition ptransp (n i j : Z) : list Z := ztab n (fun k => tfun i j (k + 1)).
Definition pcyc (n a b : Z) : list Z := ztab n (fun k => cfun a b (k + 1)).

Lemma img_ptransp n i j x : 1 <= x <= n -> img (ptransp n i j) x = tfun i j x.
Proof. intros H. unfold ptransp. rewrite img_ztab by lia. f_equal; lia. Qed.

Lemma img_pcyc n a b x : 1 <= x <= n -> img (pcyc n a b) x = cfun a b x.
Proof. intros H. unfold pcyc. rewrite img_ztab by lia. f_equal; lia. Qed.

Ltac unf := unfold tfun, cfun in *;
  repeat match goal with
  | |- context [?a =? ?b] => destruct (Z.eqb_spec a b)
  | |- context [?a <? ?b] => destruct (Z.ltb_spec a b)
  | |- context [?a <=? ?b] => destruct (Z.leb_spec a b)
  | H : context [?a =? ?b] |- _ => destruct (Z.eqb_spec a b)
  | H : context [?a <? ?b] |- _ => destruct (Z.ltb_spec a b)
  | H : context [?a <=? ?b] |- _ => destruct (Z.leb_spec a b)
  end; cbn [andb] in *; try lia.

Lemma is_perm_ptransp n i j : 1 <= i <= n -> 1 <= j <= n -> is_perm n (ptransp n i j).
Proof.
  intros Hi Hj. apply is_perm_intro.
  - apply zlen_ztab. lia.
  - intros x Hx. rewrite img_ptransp by lia. unf.
  - intros x y Hx Hy. rewrite !img_ptransp by lia. intros E. unf.
Qed.

Lemma is_perm_pcyc n a b : 1 <= a <= n -> 1 <= b <= n -> is_perm n (pcyc n a b).
Proof.
  intros Hi Hj. apply is_perm_intro.
  - apply zlen_ztab. lia.
  - intros x Hx. rewrite img_pcyc by lia. unf.
  - intros x y Hx Hy. rewrite !img_pcyc by lia. intros E. unf.
Qed.

Lemma pcyc_inverse n a b : 1 <= a <= n -> 1 <= b <= n -> pmul (pcyc n a b) (pcyc n b a) = pid n.
Proof.
  intros Ha Hb. pose proof (is_perm_pcyc n a b Ha Hb) as H1. pose proof (is_perm_pcyc n b a Hb Ha) as H2.
  pose proof (is_perm_len _ _ H1). pose proof (is_perm_len _ _ H2).
  apply perm_ext with (n := n); [rewrite zlen_pmul; auto|apply zlen_pid; lia|].
  intros x Hx. rewrite img_pmul by lia.
  rewrite (img_pcyc n b a x) by lia. rewrite img_pid by lia.
  rewrite img_pcyc; unf.
Qed.

Lemma pcyc_self n a : 1 <= a <= n -> pcyc n a a = pid n.
Proof.
  intros Ha. apply perm_ext with (n := n); [apply zlen_ztab; lia|apply zlen_pid; lia|].
  intros x Hx. rewrite img_pcyc, img_pid by lia. unf.
Qed.

Lemma pcyc_step n a b : 1 <= a -> a <= b -> b + 1 <= n ->
  pcyc n a (b + 1) = pmul (pcyc n a b) (ptransp n b (b + 1)).
Proof.
  intros Ha Hab Hb. apply perm_ext with (n := n).
  - apply zlen_ztab; lia.
  - rewrite zlen_pmul. apply zlen_ztab; lia.
  - intros x Hx. rewrite img_pmul by (unfold ptransp; rewrite zlen_ztab; lia).
    rewrite img_ptransp, img_pcyc by lia. rewrite img_pcyc; unf.
Qed.

Lemma ptransp_sym n i j : ptransp n i j = ptransp n j i.
Proof. unfold ptransp, ztab. apply map_ext. intros x. unf. Qed.

Lemma ptransp_invol n i j : 1 <= i <= n -> 1 <= j <= n -> pmul (ptransp n i j) (ptransp n i j) = pid n.
Proof.
  intros Hi Hj. pose proof (is_perm_ptransp n i j Hi Hj) as H. pose proof (is_perm_len _ _ H).
  apply perm_ext with (n := n); [rewrite zlen_pmul; auto|apply zlen_pid; lia|].
  intros x Hx. rewrite img_pmul by lia. rewrite (img_ptransp n i j x), img_pid by lia.
  rewrite img_ptransp; unf.
Qed.

(* refinement *)
Lemma p_transposition_ok n i j : 1 <= i <= n -> 1 <= j <= n -> p_transposition n i j = Ret (ptransp n i j).
Proof.
  intros Hi Hj. unfold p_transposition. rewrite alloc_ok by lia. cbn [bind].
  destruct (fill_loop n 0 n (fun i => i + 1) (fun i => i) (repeat None (Z.to_nat n)))
    as (b & E & HL & HF & _); [rewrite zlen_repeat; lia|lia|intros; split; lia|].
  rewrite E. cbn [bind]. rewrite wr_ok by lia. cbn [bind].
  rewrite wr_ok by (rewrite zlen_zupd; lia). cbn [bind].
  unfold ptransp. apply (freeze_fill _ _ 0).
  - rewrite !zlen_zupd; rewrite ?zlen_zupd; lia.
  - intros k Hk. rewrite znth_zupd by (rewrite ?zlen_zupd; lia). rewrite znth_zupd by lia.
    rewrite HF by lia. unfold tfun.
    destruct (Z.eqb_spec k (j - 1)), (Z.eqb_spec k (i - 1)), (Z.eqb_spec (k + 1) i), (Z.eqb_spec (k + 1) j);
      f_equal; lia.
Qed.

Lemma p_of_transposition_ok n i j : 1 <= i <= n -> 1 <= j <= n ->
  p_of_transposition n (mkTransp i j) = Ret (ptransp n i j).
Proof.
  intros Hi Hj. unfold p_of_transposition. rewrite p_identity_ok by lia. cbn [bind tr_i tr_j].
  rewrite wr_ok by (rewrite zlen_pid; lia). cbn [bind].
  rewrite wr_ok by (rewrite zlen_zupd, zlen_pid; rewrite ?zlen_pid; lia).
  f_equal. assert (zlen (pid n) = n) as HL by (apply zlen_pid; lia).
  apply list_ext with (d := 0).
  - rewrite !zlen_zupd; rewrite ?zlen_zupd; rewrite ?HL; try lia.
    unfold ptransp. rewrite zlen_ztab; lia.
  - intros k Hk. rewrite !zlen_zupd in Hk; rewrite ?zlen_zupd; rewrite ?HL; try lia.
    rewrite znth_zupd by (rewrite ?zlen_zupd; lia). rewrite znth_zupd by lia.
    unfold pid, ptransp. rewrite !znth_ztab by lia. unfold tfun.
    destruct (Z.eqb_spec k (j - 1)), (Z.eqb_spec k (i - 1)), (Z.eqb_spec (k + 1) i), (Z.eqb_spec (k + 1) j); lia.
Qed.

Lemma p_contiguous_cycle_ok n a b : 1 <= a <= n -> 1 <= b <= n ->
  p_contiguous_cycle n a b = Ret (pcyc n a b).
Proof.
  intros Ha Hb. unfold p_contiguous_cycle. rewrite alloc_ok by lia. cbn [bind].
  destruct (Z.ltb_spec a b).
  - destruct (fill_loop n 1 a (fun i => i) (fun i => i - 1) (repeat None (Z.to_nat n)))
      as (b1 & E1 & L1 & F1 & K1); [rewrite zlen_repeat; lia|lia|intros; split; lia|].
    rewrite E1. cbn [bind].
    destruct (fill_loop n (b + 1) (n + 1) (fun i => i) (fun i => i - 1) b1)
      as (b2 & E2 & L2 & F2 & K2); [lia|lia|intros; split; lia|].
    rewrite E2. cbn [bind].
    destruct (fill_loop n a b (fun i => i + 1) (fun i => i - 1) b2)
      as (b3 & E3 & L3 & F3 & K3); [lia|lia|intros; split; lia|].
    rewrite E3. cbn [bind]. rewrite wr_ok by lia. cbn [bind].
    apply (freeze_fill _ _ 0); [rewrite zlen_zupd; lia|].
    intros k Hk. rewrite znth_zupd by lia. unfold cfun.
    destruct (Z.ltb_spec a b); [|lia].
    destruct (Z.eqb_spec k (b - 1)).
    { destruct (Z.leb_spec a (k+1)), (Z.ltb_spec (k+1) b); cbn [andb]; try lia;
        destruct (Z.eqb_spec (k+1) b); try lia; auto. }
    destruct (Z.leb_spec a (k+1)), (Z.ltb_spec (k+1) b); cbn [andb]; try lia;
        destruct (Z.eqb_spec (k+1) b); try lia; auto.
    + replace k with (k + 1 - 1) at 1 by lia. apply F3; lia.
    + rewrite K3 by (intros; lia). replace k with (k + 1 - 1) at 1 by lia. apply F2; lia.
    + rewrite K3 by (intros; lia). rewrite K2 by (intros; lia).
      replace k with (k + 1 - 1) at 1 by lia. apply F1; lia.
  - destruct (fill_loop n 1 b (fun i => i) (fun i => i - 1) (repeat None (Z.to_nat n)))
      as (b1 & E1 & L1 & F1 & K1); [rewrite zlen_repeat; lia|lia|intros; split; lia|].
    rewrite E1. cbn [bind].
    destruct (fill_loop n (a + 1) (n + 1) (fun i => i) (fun i => i - 1) b1)
      as (b2 & E2 & L2 & F2 & K2); [lia|lia|intros; split; lia|].
    rewrite E2. cbn [bind].
    destruct (fill_loop n (b + 1) (a + 1) (fun i => i - 1) (fun i => i - 1) b2)
      as (b3 & E3 & L3 & F3 & K3); [lia|lia|intros; split; lia|].
    rewrite E3. cbn [bind]. rewrite wr_ok by lia. cbn [bind].
    apply (freeze_fill _ _ 0); [rewrite zlen_zupd; lia|].
    intros k Hk. rewrite znth_zupd by lia. unfold cfun.
    destruct (Z.ltb_spec a b); [lia|].
    destruct (Z.eqb_spec k (b - 1)).
    { destruct (Z.leb_spec (k+1) a), (Z.ltb_spec b (k+1)); cbn [andb]; try lia;
        destruct (Z.eqb_spec (k+1) b); try lia; auto. }
    destruct (Z.leb_spec (k+1) a), (Z.ltb_spec b (k+1)); cbn [andb]; try lia;
        destruct (Z.eqb_spec (k+1) b); try lia; auto.
    + replace k with (k + 1 - 1) at 1 by lia. apply F3; lia.
    + rewrite K3 by (intros; lia). rewrite K2 by (intros; lia).
      replace k with (k + 1 - 1) at 1 by lia. apply F1; lia.
    + rewrite K3 by (intros; lia). replace k with (k + 1 - 1) at 1 by lia. apply F2; lia.
Qed.

(* contiguous cycle = product of adjacent transpositions, multiplied left to right *)
Lemma cycle_product n a b : 1 <= a -> a <= b -> b <= n ->
  foldM (fun i acc => t <- p_transposition n i (i + 1) ;; p_mul acc t) (zrange a b) (pid n)
  = Ret (pcyc n a b).
Proof.
  intros Ha Hab Hb.
  destruct (zfor_inv (fun k acc => acc = pcyc n a k) a b
    (fun i acc => t <- p_transposition n i (i + 1) ;; p_mul acc t) (pid n)) as (s' & E & ->).
  - lia.
  - symmetry. apply pcyc_self. lia.
  - intros i s Hi ->. rewrite p_transposition_ok by lia. cbn [bind].
    rewrite (p_mul_perm n); [|apply is_perm_pcyc; lia|apply is_perm_ptransp; lia].
    eexists; split; [reflexivity|]. symmetry. apply pcyc_step; lia.
  - exact E.
Qed.
