(* The value of a character at the cycle through all points. *)
From Coq Require Import ZArith List Bool Lia ZifyBool Permutation Reals Lra.
From Verif Require Import Model_Base Model_Sn Model_Perm Model_Part Model_Tab Model_Irrep.
From Verif Require Import Spec_Perm Spec_Part Spec_Tab Spec_Rep Spec_Four.
From Verif Require Import Proof_Base Proof_Perm Proof_Sn Proof_SnProps Proof_Part Proof_PartProps Proof_Tab Proof_TabProps Proof_Cycles Proof_Cox Proof_Yor Proof_Sum Proof_Irrep Proof_Rep Proof_Mat Proof_IrrepProps Proof_JM Proof_Conn Proof_Schur Proof_Restr Proof_UpDown Proof_Complete Proof_Char Proof_Kron Proof_FFTlay2 Proof_Hook Proof_Learn1 Proof_Int1 Proof_Int2.
Import ListNotations.
Open Scope Z_scope.

(* the product of the contents of 2..k+1 *)
Fixpoint qc (t : list (list Z)) (k : nat) : Z := match k with O => 1 | S k' => qc t k' * cont t (Z.of_nat k' + 2) end.

Lemma prods_entry n l k i j : is_part n l -> 1 <= n -> Z.of_nat k + 1 <= n -> 0 <= i < dd n l -> 0 <= j < dd n l ->
  lsum (prods n k) (fun p => rr n l p i j) = (IZR (qc (tb (mkirr n l) i) k) * delta i j)%R.
Proof.
  intros P Hn. revert i j. induction k as [|k IH]; intros i j Hk Hi Hj.
  - cbn [prods qc]. rewrite lsum_cons, lsum_nil, rr_id by auto. ring.
  - cbn [prods qc]. rewrite lsum_flat_map.
    destruct (mkirr_ok n l P Hn) as (_ & G).
    rewrite (lsum_ext _ _ (fun p => lsum (zrange 0 (dd n l)) (fun m => (rr n l p i m * (IZR (cont (tb (mkirr n l) m) (Z.of_nat k + 2)) * delta m j))%R))).
    + rewrite lsum_swap. rewrite (lsum_ext _ _ (fun m => (IZR (qc (tb (mkirr n l) i) k) * delta i m * (IZR (cont (tb (mkirr n l) m) (Z.of_nat k + 2)) * delta m j))%R)).
      2:{ intros m Hm. apply in_zrange in Hm. rewrite lsum_scal_r, IH by lia. auto. }
      rewrite (lsum_single _ i); [|apply NoDup_zrange|apply in_zrange; auto|].
      * rewrite mult_IZR. unfold delta. destruct (Z.eq_dec i i); [|contradiction]. ring.
      * intros m _ Ne. unfold delta at 1. destruct (Z.eq_dec i m); [congruence|]. ring.
    + intros p Hp. destruct (prods_cycle n k p Hn ltac:(lia) Hp) as (Pp & _). rewrite lsum_map.
      rewrite (lsum_ext _ _ (fun a => lsum (zrange 0 (dd n l)) (fun m => (rr n l p i m * rr n l (ptransp n a (Z.of_nat k + 2)) m j)%R))).
      2:{ intros a Ha. apply in_zrange in Ha. rewrite (rr_mul n Hn) by (auto; apply is_perm_ptransp; lia). apply rsum_lsum. }
      rewrite lsum_swap. apply lsum_ext. intros m Hm. apply in_zrange in Hm. rewrite lsum_scal. f_equal. unfold rr. apply (jm_entry n l _ G); auto; lia.
Qed.

Definition SS (n : Z) (l : list Z) : R := rsum (dd n l) (fun i => IZR (qc (tb (mkirr n l) i) (Z.to_nat (n - 1)))).

Lemma chi_cycle_SS n l : is_part n l -> 1 <= n -> (IZR (zfact (n - 1)) * chi n l (pcyc n 1 n))%R = SS n l.
Proof.
  intros P Hn. unfold SS. transitivity (rsum (dd n l) (fun i => lsum (prods n (Z.to_nat (n - 1))) (fun p => rr n l p i i))).
  2:{ apply rsum_ext. intros i Hi. rewrite prods_entry by (auto; lia). unfold delta. destruct (Z.eq_dec i i); [ring|contradiction]. }
  rewrite rsum_lsum, lsum_swap. rewrite (lsum_ext _ _ (fun _ => chi n l (pcyc n 1 n))).
  - rewrite lsum_const, zlen_prods. f_equal. f_equal. f_equal. lia.
  - intros p Hp. destruct (prods_cycle n (Z.to_nat (n - 1)) p Hn ltac:(lia) Hp) as (Pp & h & Hh & _ & E). replace (Z.of_nat (Z.to_nat (n - 1)) + 1) with n in E by lia.
    rewrite <- rsum_lsum. change (rsum (dd n l) (fun i => rr n l p i i)) with (chi n l p).
    pose proof (is_perm_pcyc n 1 n ltac:(lia) ltac:(lia)) as C. pose proof (is_perm_pinv n h Hh) as Hi.
    rewrite <- (chi_class n Hn l P h (pcyc n 1 n) Hh C). f_equal. rewrite <- (pmul_assoc n) by auto. rewrite <- E. rewrite (pmul_assoc n), (pmul_pinv_r n), (pmul_pid_r n) by auto. auto.
Qed.

Lemma qc_ext t t' k : (forall v, 2 <= v <= Z.of_nat k + 1 -> cont t v = cont t' v) -> qc t k = qc t' k.
Proof. induction k as [|k IH]; intros H; [reflexivity|]. cbn [qc]. rewrite IH by (intros; apply H; lia). rewrite H by lia. auto. Qed.

Lemma SS_step n l : is_part n l -> 2 <= n -> SS n l = lsum (corners l) (fun r => (IZR (row l r - 1 - r) * SS (n - 1) (prem l r))%R).
Proof.
  intros P Hn. unfold SS. rewrite rsum_boff by auto. apply lsum_ext. intros r Hr. pose proof (corner_part n l r P Hr) as Pr. rewrite <- Proof_FFTmath.rsum_scal. apply rsum_ext. intros a Ha.
  rewrite tb_boff by auto. rewrite <- mult_IZR. f_equal. destruct (mkirr_ok (n - 1) _ Pr ltac:(lia)) as (_ & G). pose proof (tb_standard _ _ _ _ G Ha) as St.
  replace (Z.to_nat (n - 1)) with (S (Z.to_nat (n - 1 - 1))) by lia. cbn [qc]. rewrite (cont_yadd n l r _ _ P ltac:(lia) Hr St) by lia. destruct (Z.eqb_spec (Z.of_nat (Z.to_nat (n - 1 - 1)) + 2) n); [|lia].
  rewrite (qc_ext _ (tb (mkirr (n - 1) (prem l r)) a)); [lia|]. intros v Hv. rewrite (cont_yadd n l r _ _ P ltac:(lia) Hr St) by lia. destruct (Z.eqb_spec v n); [lia|auto].
Qed.

(* ---- hooks ---- *)
Definition hsign (l : list Z) : Z := if row l 1 <=? 1 then (-1) ^ (zlen l - 1) else 0.

Lemma hook_rows n l i : is_part n l -> row l 1 <= 1 -> 1 <= i < zlen l -> row l i = 1.
Proof.
  intros P H Hi. pose proof (row_mono n l 1 i P ltac:(lia)). assert (1 <= row l i); [|lia]. unfold row. apply (is_part_ppos n l P). apply nth_In. unfold zlen in *. lia.
Qed.

Lemma hook_size n l : is_part n l -> 1 <= n -> row l 1 <= 1 -> n = row l 0 + (zlen l - 1).
Proof.
  intros P Hn H. destruct l as [|a t]; [destruct P as (_ & _ & E); cbn in E; lia|]. assert (forall x, In x t -> x = 1) as A.
  { intros x Hx. apply (In_nth _ _ 0) in Hx as (k & Hk & <-). pose proof (hook_rows n (a :: t) (Z.of_nat k + 1) P H) as R. unfold row in R. replace (Z.to_nat (Z.of_nat k + 1)) with (S k) in R by lia. cbn [nth] in R. apply R. rewrite zlen_cons. unfold zlen. lia. }
  destruct P as (_ & _ & E). rewrite zsum_cons in E. rewrite zlen_cons. change (row (a :: t) 0) with a. enough (zsum t = zlen t) by lia. clear - A. induction t as [|x t IH]; [reflexivity|]. rewrite zsum_cons, zlen_cons. rewrite IH by (intros; apply A; right; auto). rewrite (A x) by (left; auto). lia.
Qed.

Lemma zlen_prem_eq n l r : is_part n l -> In r (corners l) -> zlen (prem l r) = if row l r =? 1 then zlen l - 1 else zlen l.
Proof.
  intros P Hr. pose proof (is_part_ppos _ _ P) as Pp. apply in_corners in Hr as (Hr & Lt). unfold prem. cbv zeta. pose proof (zlen_zupd l r (row l r - 1) Hr).
  assert (0 <= zlen l - 1) by lia. assert (r <> zlen l - 1 -> 1 <= row l (r + 1)) as A by (intros; unfold row; apply Pp; apply nth_In; unfold zlen in *; lia).
  assert (1 <= row l (zlen l - 1)) as B by (unfold row; apply Pp; apply nth_In; unfold zlen in *; lia).
  rewrite row_zupd by lia. destruct (Z.eqb_spec (zlen l - 1) r) as [E|E].
  - subst r. destruct (Z.eqb_spec (row l (zlen l - 1) - 1) 0); destruct (Z.eqb_spec (row l (zlen l - 1)) 1); try lia. rewrite zlen_firstn by lia. lia.
  - specialize (A ltac:(lia)). destruct (Z.eqb_spec (row l (zlen l - 1)) 0); [lia|]. destruct (Z.eqb_spec (row l r) 1); lia.
Qed.

Lemma hook_sum n l : is_part n l -> 2 <= n -> lsum (corners l) (fun r => IZR ((row l r - 1 - r) * hsign (prem l r))) = IZR ((n - 1) * hsign l).
Proof.
  intros P Hn. assert (1 <= zlen l) as Hl by (destruct l as [|x l]; [destruct P as (_ & _ & E); cbn in E; lia|rewrite zlen_cons; pose proof (zlen_nonneg l); lia]).
  destruct (Z_le_dec (row l 1) 1) as [H|H].
  - pose proof (hook_size n l P ltac:(lia) H) as Es. unfold hsign at 2. destruct (Z.leb_spec (row l 1) 1); [|lia].
    assert (forall r, In r (corners l) -> hsign (prem l r) = (-1) ^ (zlen (prem l r) - 1)) as Hs.
    { intros r Hr. unfold hsign. destruct (Z.leb_spec (row (prem l r) 1) 1) as [L|L]; auto. rewrite (corner_row n l r 1 P Hr) in L by lia. destruct (Z.eqb_spec 1 r); lia. }
    destruct (Z.eq_dec (zlen l) 1) as [E1|E1].
    + assert (row l 1 = 0) as R1 by (unfold row; apply nth_overflow; unfold zlen in E1; lia).
      assert (In 0 (corners l)) as I0 by (apply in_corners; change (0 + 1) with 1; lia).
      rewrite (lsum_single _ 0 _ (NoDup_corners l) I0). 2:{ intros r Hr Ne. apply in_corners in Hr. lia. }
      f_equal. rewrite (Hs 0 I0), (zlen_prem_eq n l 0 P I0). destruct (Z.eqb_spec (row l 0) 1); [lia|]. rewrite E1. cbn. lia.
    + set (b := zlen l - 1) in *. assert (row l b = 1) as Rb by (apply (hook_rows n); auto; unfold b; lia).
      assert (row l (b + 1) = 0) as Rb1 by (unfold row; apply nth_overflow; unfold b, zlen in *; lia).
      assert (In b (corners l)) as Ib by (apply in_corners; unfold b in *; lia).
      assert (row l 1 = 1) as R1 by (apply (hook_rows n); auto; unfold b in *; lia).
      assert ((-1) ^ (b - 1) = - (-1) ^ b) as Pw by (replace b with (Z.succ (b - 1)) at 2 by lia; rewrite Z.pow_succ_r by (unfold b; lia); lia).
      pose proof (row_mono n l 0 1 P ltac:(lia)) as M.
      assert ((row l b - 1 - b) * hsign (prem l b) = b * (-1) ^ b) as Tb.
      { rewrite (Hs b Ib), (zlen_prem_eq n l b P Ib), Rb. cbn [Z.eqb Pos.eqb]. fold b. rewrite Pw. lia. }
      destruct (Z.eq_dec (row l 0) 1) as [A|A].
      * rewrite (lsum_single _ b _ (NoDup_corners l) Ib); [rewrite Tb; f_equal; f_equal; lia|]. intros r Hr Ne. exfalso. pose proof Hr as Hr'. apply in_corners in Hr as (Hr & Lt). assert (row l (r + 1) = 1) by (apply (hook_rows n); auto; unfold b in *; lia). destruct (Z.eq_dec r 0); [subst; lia|]. rewrite (hook_rows n l r) in Lt by (auto; unfold b in *; lia). lia.
      * assert (In 0 (corners l)) as I0 by (apply in_corners; change (0 + 1) with 1; lia).
        assert ((row l 0 - 1 - 0) * hsign (prem l 0) = (row l 0 - 1) * (-1) ^ b) as T0.
        { rewrite (Hs 0 I0), (zlen_prem_eq n l 0 P I0). destruct (Z.eqb_spec (row l 0) 1); [lia|]. fold b. f_equal. lia. }
        assert (Permutation (corners l) [0; b]) as Pm.
        { apply NoDup_Permutation; [apply NoDup_corners|constructor; [intros [E|[]]; unfold b in *; lia|constructor; [intros []|constructor]]|]. intros r. split.
          - intros Hr. pose proof Hr as Hr'. apply in_corners in Hr as (Hr & Lt). destruct (Z.eq_dec r 0); [left; auto|]. destruct (Z.eq_dec r b); [right; left; auto|]. exfalso. rewrite !(hook_rows n l) in Lt by (auto; unfold b in *; lia). lia.
          - intros [<-|[<-|[]]]; auto. }
        rewrite (lsum_Permutation _ _ _ Pm). rewrite !lsum_cons, lsum_nil, T0, Tb, Rplus_0_r, <- plus_IZR. f_equal. rewrite Es. unfold b. ring.
  - unfold hsign at 2. destruct (Z.leb_spec (row l 1) 1); [lia|]. rewrite Z.mul_0_r. apply lsum_0. intros r Hr. f_equal. unfold hsign. rewrite (corner_row n l r 1 P Hr) by lia. destruct (Z.eqb_spec 1 r) as [<-|].
    + destruct (Z.leb_spec (row l 1 - 1) 1); [|lia]. replace (row l 1 - 1 - 1) with 0 by lia. lia.
    + destruct (Z.leb_spec (row l 1 - 0) 1); lia.
Qed.

Lemma SS_val k : forall n l, n = Z.of_nat k + 1 -> is_part n l -> SS n l = IZR (zfact (n - 1) * hsign l).
Proof.
  induction k as [|k IH]; intros n l En P.
  - change (Z.of_nat 0 + 1) with 1 in En. subst n. apply is_part_1 in P. subst l. unfold SS. assert (dd 1 [1] = 1) as D by reflexivity. rewrite D. change (1 - 1) with 0. rewrite rsum_lsum. change (zrange 0 1) with [0]. rewrite lsum_cons, lsum_nil. change (qc (tb (mkirr 1 [1]) 0) (Z.to_nat 0)) with 1. change (zfact 0 * hsign [1]) with 1. ring.
  - rewrite SS_step by (auto; lia). rewrite (lsum_ext _ _ (fun r => (IZR (zfact (n - 1 - 1)) * IZR ((row l r - 1 - r) * hsign (prem l r)))%R)).
    + rewrite lsum_scal, (hook_sum n l P) by lia. rewrite <- mult_IZR. f_equal. rewrite (zfact_step (n - 1)) by lia. ring.
    + intros r Hr. rewrite (IH (n - 1) (prem l r)) by (try lia; apply corner_part; auto). rewrite <- !mult_IZR. f_equal. ring.
Qed.

Lemma chi_cycle n l : is_part n l -> 1 <= n -> chi n l (pcyc n 1 n) = IZR (hsign l).
Proof.
  intros P Hn. pose proof (chi_cycle_SS n l P Hn) as E. rewrite (SS_val (Z.to_nat (n - 1))) in E by (auto; lia). rewrite mult_IZR in E. apply Rmult_eq_reg_l in E; auto. apply IZR_neq. pose proof (zfact_pos (n - 1)). lia.
Qed.
