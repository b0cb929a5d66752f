(* The value of a character at the cycle through all points: the product of the Jucys-Murphy elements is the sum of all such cycles. *)
From Coq Require Import ZArith List Bool Lia ZifyBool Permutation Reals Lra.
From Verif Require Import Model_Base Model_Sn Model_Perm Model_Part Model_Tab Model_Irrep.
From Verif Require Import Spec_Perm Spec_Part Spec_Tab Spec_Rep Spec_Four.
From Verif Require Import Proof_Base Proof_Perm Proof_Sn Proof_SnProps Proof_Part Proof_PartProps Proof_Tab Proof_TabProps Proof_Cycles Proof_Cox Proof_Yor Proof_Sum Proof_Irrep Proof_Rep Proof_Mat Proof_IrrepProps Proof_JM Proof_Conn Proof_Schur Proof_Restr Proof_UpDown Proof_Complete Proof_Char Proof_Kron Proof_FFTlay2 Proof_Hook Proof_Learn1 Proof_Int1.
Import ListNotations.
Open Scope Z_scope.

(* ---- rotations of 1..k ---- *)
Definition rotf (k b x : Z) : Z := if x <=? k then (x + b - 1) mod k + 1 else x.
Definition rot (n k b : Z) : list Z := ztab n (fun i => rotf k b (i + 1)).

Lemma img_rot n k b x : 1 <= x <= n -> img (rot n k b) x = rotf k b x.
Proof. intros H. unfold rot. rewrite img_ztab by lia. f_equal; lia. Qed.

Lemma rotf_range k b x : 1 <= k -> 1 <= x <= k -> 1 <= rotf k b x <= k.
Proof. intros Hk Hx. unfold rotf. destruct (Z.leb_spec x k); [|lia]. pose proof (Z.mod_pos_bound (x + b - 1) k). lia. Qed.

Lemma is_perm_rot n k b : 1 <= k <= n -> is_perm n (rot n k b).
Proof.
  intros Hk. apply is_perm_intro.
  - apply zlen_ztab. lia.
  - intros x Hx. rewrite img_rot by lia. destruct (Z_le_dec x k); [pose proof (rotf_range k b x); lia|]. unfold rotf. destruct (Z.leb_spec x k); lia.
  - intros x y Hx Hy. rewrite !img_rot by lia. intros E. destruct (Z_le_dec x k) as [Lx|Lx]; destruct (Z_le_dec y k) as [Ly|Ly].
    + unfold rotf in E. destruct (Z.leb_spec x k); [|lia]. destruct (Z.leb_spec y k); [|lia].
      assert ((x + b - 1) mod k = (y + b - 1) mod k) as M by lia. pose proof (Z.div_mod (x + b - 1) k ltac:(lia)). pose proof (Z.div_mod (y + b - 1) k ltac:(lia)).
      set (u := (x + b - 1) / k) in *. set (w := (y + b - 1) / k) in *. assert (x - y = k * (u - w)) by lia. assert (u - w = 0) by nia. lia.
    + pose proof (rotf_range k b x ltac:(lia) ltac:(lia)). unfold rotf in E at 2. destruct (Z.leb_spec y k); lia.
    + pose proof (rotf_range k b y ltac:(lia) ltac:(lia)). unfold rotf in E at 1. destruct (Z.leb_spec x k); lia.
    + unfold rotf in E. destruct (Z.leb_spec x k); [lia|]. destruct (Z.leb_spec y k); lia.
Qed.

Lemma cfun_rot k x : 1 <= k -> 1 <= x -> cfun 1 k x = rotf k 1 x.
Proof.
  intros Hk Hx. unfold rotf. destruct (Z.leb_spec x k).
  - destruct (Z.eq_dec x k) as [->|Ne]; [replace (k + 1 - 1) with k by lia; rewrite Z.mod_same by lia|rewrite Z.mod_small by lia]; unf.
  - unf.
Qed.

Lemma rotf_comp k b c x : 1 <= k -> 1 <= x -> rotf k b (rotf k c x) = rotf k (b + c) x.
Proof.
  intros Hk Hx. destruct (Z_le_dec x k).
  - pose proof (rotf_range k c x Hk ltac:(lia)) as B. unfold rotf at 1. destruct (Z.leb_spec (rotf k c x) k); [|lia]. unfold rotf. destruct (Z.leb_spec x k); [|lia]. f_equal.
    replace ((x + c - 1) mod k + 1 + b - 1) with ((x + c - 1) mod k + b) by lia. rewrite Z.add_mod_idemp_l by lia. f_equal. lia.
  - unfold rotf. destruct (Z.leb_spec x k) as [|Hx']; [lia|]. rewrite (proj2 (Z.leb_gt x k) Hx'). auto.
Qed.

Lemma rot_comm n k b : 1 <= k <= n -> pmul (pcyc n 1 k) (rot n k b) = pmul (rot n k b) (pcyc n 1 k).
Proof.
  intros Hk. pose proof (is_perm_rot n k b Hk) as R. pose proof (is_perm_pcyc n 1 k ltac:(lia) ltac:(lia)) as C.
  apply (perm_ext n); [apply is_perm_len; apply is_perm_pmul; auto|apply is_perm_len; apply is_perm_pmul; auto|]. intros x Hx. rewrite !img_pmul by (rewrite ?(is_perm_len _ _ R), ?(is_perm_len _ _ C); auto).
  pose proof (is_perm_img _ _ x R Hx). pose proof (is_perm_img _ _ x C Hx). rewrite (img_pcyc n 1 k (img (rot n k b) x)), (img_rot n k b (img (pcyc n 1 k) x)) by auto. rewrite !cfun_rot by lia. rewrite img_rot, img_pcyc, cfun_rot by lia. rewrite !rotf_comp by lia. f_equal. lia.
Qed.

(* every point of the cycle can be moved to its end without changing the cycle *)
Lemma rotate_to n k c : 1 <= k <= n -> 1 <= c <= k -> exists w, is_perm n w /\ (forall x, k < x <= n -> img w x = x) /\ img w k = c /\ pmul (pcyc n 1 k) w = pmul w (pcyc n 1 k).
Proof.
  intros Hk Hc. exists (rot n k c). split; [apply is_perm_rot; auto|]. split; [|split; [|apply rot_comm; auto]].
  - intros x Hx. rewrite img_rot by lia. unfold rotf. destruct (Z.leb_spec x k); lia.
  - rewrite img_rot by lia. unfold rotf. destruct (Z.leb_spec k k); [|lia]. replace (k + c - 1) with (c - 1 + 1 * k) by lia. rewrite Z.mod_add by lia. rewrite Z.mod_small by lia. lia.
Qed.

(* ---- the products (a_2 2)(a_3 3)...(a_(k+1) k+1) ---- *)
Fixpoint prods (n : Z) (k : nat) : list (list Z) :=
  match k with O => [pid n] | S k' => flat_map (fun p => map (fun a => pmul p (ptransp n a (Z.of_nat k' + 2))) (zrange 1 (Z.of_nat k' + 2))) (prods n k') end.

Lemma pcyc_step n k : 1 <= k -> k + 1 <= n -> pmul (pcyc n 1 k) (ptransp n k (k + 1)) = pcyc n 1 (k + 1).
Proof.
  intros Hk Hn. pose proof (is_perm_pcyc n 1 k ltac:(lia) ltac:(lia)) as C. pose proof (is_perm_ptransp n k (k + 1) ltac:(lia) ltac:(lia)) as T. pose proof (is_perm_pcyc n 1 (k + 1) ltac:(lia) ltac:(lia)) as C'.
  apply (perm_ext n); [apply is_perm_len; apply is_perm_pmul; auto|apply is_perm_len; auto|]. intros x Hx. rewrite img_pmul by (rewrite (is_perm_len _ _ T); auto). pose proof (is_perm_img _ _ x T Hx). rewrite img_pcyc by auto. rewrite img_ptransp, img_pcyc in * by auto. unf.
Qed.

Lemma ptransp_conj2 n h a k : is_perm n h -> 1 <= a <= n -> 1 <= k <= n -> pmul (ptransp n (img h a) (img h k)) h = pmul h (ptransp n a k).
Proof.
  intros Hh Ha Hk. pose proof (is_perm_img _ _ a Hh Ha) as Ia. pose proof (is_perm_img _ _ k Hh Hk) as Ik. pose proof (is_perm_ptransp n a k Ha Hk) as T. pose proof (is_perm_ptransp n _ _ Ia Ik) as T'.
  apply (perm_ext n); [apply is_perm_len; apply is_perm_pmul; auto|apply is_perm_len; apply is_perm_pmul; auto|]. intros x Hx. rewrite !img_pmul by (rewrite ?(is_perm_len _ _ T), ?(is_perm_len _ _ Hh); auto). pose proof (is_perm_img _ _ x Hh Hx). rewrite !img_ptransp by auto. unfold tfun.
  assert (forall y, 1 <= y <= n -> (img h x =? img h y) = (x =? y)) as Q.
  { intros y Hy. destruct (Z.eqb_spec x y) as [->|Ne]; [apply Z.eqb_refl|]. apply Z.eqb_neq. intros E. apply Ne. apply (img_inj n h); auto. }
  rewrite !Q by auto. destruct (x =? a); auto. destruct (x =? k); auto.
Qed.

Lemma prods_cycle n k p : 1 <= n -> Z.of_nat k + 1 <= n -> In p (prods n k) ->
  is_perm n p /\ exists h, is_perm n h /\ (forall x, Z.of_nat k + 1 < x <= n -> img h x = x) /\ pmul p h = pmul h (pcyc n 1 (Z.of_nat k + 1)).
Proof.
  intros Hn. revert p. induction k as [|k IH]; intros p Hk Hp.
  - destruct Hp as [<-|[]]. split; [apply is_perm_pid; lia|]. exists (pid n). split; [apply is_perm_pid; lia|]. split; [intros x Hx; apply img_pid; lia|]. change (Z.of_nat 0 + 1) with 1. rewrite pcyc_self by lia. auto.
  - cbn [prods] in Hp. apply in_flat_map in Hp as (p0 & Hp0 & Hp). apply in_map_iff in Hp as (a & <- & Ha). apply in_zrange in Ha. set (K := Z.of_nat k + 1) in *. replace (Z.of_nat k + 2) with (K + 1) in * by lia. replace (Z.of_nat (S k) + 1) with (K + 1) by lia.
    destruct (IH p0 ltac:(lia) Hp0) as (P0 & h & Hh & Fix & E). pose proof (is_perm_ptransp n a (K + 1) ltac:(lia) ltac:(lia)) as T. pose proof (is_perm_pcyc n 1 K ltac:(lia) ltac:(lia)) as C. pose proof (is_perm_ptransp n K (K + 1) ltac:(lia) ltac:(lia)) as TK.
    split; [apply is_perm_pmul; auto|]. pose proof (is_perm_pinv n h Hh) as Hi.
    assert (1 <= img (pinv h) a <= K) as Hc.
    { pose proof (is_perm_img _ _ a Hi ltac:(lia)) as B. destruct (Z_le_dec (img (pinv h) a) K); [lia|]. pose proof (Fix (img (pinv h) a) ltac:(lia)) as F. rewrite (img_pinv_r n) in F by (auto; lia). lia. }
    destruct (rotate_to n K (img (pinv h) a) ltac:(lia) Hc) as (w & Hw & Fw & Ew & Cw). pose proof (is_perm_pmul n h w Hh Hw) as Hhw.
    assert (img (pmul h w) K = a) as Ea by (rewrite img_pmul by (rewrite (is_perm_len _ _ Hw); lia); rewrite Ew; apply (img_pinv_r n); auto; lia).
    assert (forall x, K < x <= n -> img (pmul h w) x = x) as Fhw by (intros x Hx; rewrite img_pmul by (rewrite (is_perm_len _ _ Hw); lia); rewrite Fw by lia; apply Fix; lia).
    exists (pmul h w). split; [auto|]. split; [intros x Hx; apply Fhw; lia|].
    rewrite (pmul_assoc n) by auto. rewrite <- Ea at 1. rewrite <- (Fhw (K + 1)) at 1 by lia. rewrite ptransp_conj2 by (auto; lia).
    rewrite <- (pmul_assoc n) by auto. rewrite <- (pmul_assoc n p0) by auto. rewrite E. rewrite (pmul_assoc n h (pcyc n 1 K) w) by auto. rewrite Cw. rewrite <- (pmul_assoc n h w) by auto. rewrite (pmul_assoc n (pmul h w)) by auto. rewrite pcyc_step by lia. auto.
Qed.

Lemma zlen_flat_map_const {A B} (f : A -> list B) c l : (forall x, In x l -> zlen (f x) = c) -> zlen (flat_map f l) = zlen l * c.
Proof. induction l as [|x l IH]; intros H; [reflexivity|]. cbn [flat_map]. rewrite zlen_app, zlen_cons, IH by (intros; apply H; right; auto). rewrite H by (left; auto). lia. Qed.

Lemma zlen_prods n k : zlen (prods n k) = zfact (Z.of_nat k).
Proof.
  induction k as [|k IH]; [reflexivity|]. cbn [prods]. rewrite (zlen_flat_map_const _ (Z.of_nat k + 1)) by (intros p _; rewrite zlen_map, zlen_zrange; lia). rewrite IH.
  rewrite (zfact_step (Z.of_nat (S k))) by lia. replace (Z.of_nat (S k) - 1) with (Z.of_nat k) by lia. lia.
Qed.
