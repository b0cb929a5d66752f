(* Tables learned with two exact routines; learned products need not commute with S_4. *)
From Coq Require Import ZArith List Bool Lia Reals Lra Sorting.Sorted Permutation.
From Verif Require Import Model_Base Model_Perm Model_Sn Model_Part Model_Comb Model_Tab Model_Irrep Model_Type Model_FFT Model_Vec Model_Char Model_CG Model_CGvec Model_VecB Model_Prod Model_Learn.
From Verif Require Import Spec_Perm Spec_Part Spec_Tab Spec_Rep Spec_Four Spec_Type Spec_FFT Spec_Vec Spec_CG Spec_CGvec Spec_VecB Spec_Prod Spec_Learn.
From Verif Require Import Proof_Base Proof_Perm Proof_Sn Proof_Part Proof_PartProps Proof_Tab Proof_TabProps Proof_Cycles Proof_Cox Proof_Yor Proof_Sum Proof_Irrep Proof_Rep Proof_Mat Proof_IrrepProps Proof_JM Proof_Conn Proof_Schur Proof_Restr Proof_UpDown Proof_Complete Proof_Char Proof_CharBank Proof_Type Proof_Rept Proof_FFTmath Proof_FFTlay Proof_FFTlay2 Proof_FFTblk Proof_FFTstep Proof_Vec Proof_Vec2 Proof_Vec3 Proof_Vec4 Proof_Vec5 Proof_Vec6 Proof_Vec7 Proof_Vec8 Proof_Kron Proof_CG Proof_CGdown Proof_CGvec1 Proof_CGvec2 Proof_CGvec3 Proof_CGvec4 Proof_CGvec5 Proof_CGvec6 Proof_CGvec7 Proof_Prod Proof_Hook Proof_Isot Proof_View Proof_VecB Proof_VecB2 Proof_Learn1 Proof_Learn2 Proof_Learn3 Proof_Learn4 Proof_Learn5 Proof_Learn6 Proof_Learn7 Proof_Learn8 Proof_Learn9.
Import ListNotations.
Open Scope Z_scope.

(* ---- tables that agree where there are entries ---- *)

Definition agreeR (N : Z) (F F' : ftable) : Prop := forall m a b mu i j, 2 <= m <= N -> is_part m a -> is_part m b -> is_part (m - 1) mu -> 0 <= i < WW m a b mu -> 0 <= j < WW m a b mu -> F a b mu i j = F' a b mu i j.
Lemma agree_R N F F' : agree N F F' -> agreeR N F F'.
Proof. intros A m a b mu i j Hm Pa _ _ _ _. apply (A m); auto. Qed.
Lemma agreeR_sym N F F' : agreeR N F F' -> agreeR N F' F.
Proof. intros A m a b mu i j Hm Pa Pb Pm Hi Hj. symmetry. apply (A m); auto. Qed.
Lemma agreeR_trans N F F' F2 : agreeR N F F' -> agreeR N F' F2 -> agreeR N F F2.
Proof. intros A B m a b mu i j Hm Pa Pb Pm Hi Hj. rewrite (A m) by auto. apply (B m); auto. Qed.

Lemma BB_agreeR F F' k : agreeR (Z.of_nat k + 1) F F' -> forall l1 l2 x y lam i j, is_part (Z.of_nat k + 1) l1 -> is_part (Z.of_nat k + 1) l2 -> is_part (Z.of_nat k + 1) lam -> 0 <= j < kz (Z.of_nat k + 1) l1 l2 lam -> BB F k l1 l2 x y lam i j = BB F' k l1 l2 x y lam i j.
Proof.
  induction k as [|k IH]; intros A l1 l2 x y lam i j P1 P2 Pl Hj; [reflexivity|]. cbn [BB]. cbv zeta. replace (Z.of_nat (S k) + 1) with (Z.of_nat k + 2) in * by lia. set (n := Z.of_nat k + 2) in *. apply colsum_ext; [auto|]. intros r a Hr _. pose proof (corner_part n lam r Pl Hr) as Pm. apply rsum_ext. intros c Hc.
  assert (In (prem lam r) (belows lam)) as Hm by (apply in_map; auto). destruct (coff_range k l1 l2 P1 P2 (prem lam r) lam j Pm Pl Hm Hj) as (C1 & C2 & _). fold n in C1, C2. f_equal; [|apply (A n); auto; lia].
  apply colsum_ext; [auto|]. intros p c' Hp Hc'. destruct (prs_in n l1 l2 p P1 P2 Hp) as (_ & _ & Q1 & Q2). replace (n - 1) with (Z.of_nat k + 1) in * by lia. apply IH; auto. intros m l1' b mu i' j' Hm'. apply A. lia. unfold pk in Hc'. replace (n - 1) with (Z.of_nat k + 1) in Hc' by lia. exact Hc'.
Qed.
Lemma SS_agreeR F F' k l1 l2 x y mu a c : agreeR (Z.of_nat k + 1) F F' -> is_part (Z.of_nat k + 2) l1 -> is_part (Z.of_nat k + 2) l2 -> is_part (Z.of_nat k + 1) mu -> SSv F k l1 l2 x y mu a c = SSv F' k l1 l2 x y mu a c.
Proof.
  intros A P1 P2 Pm. unfold SSv. cbv zeta. apply colsum_ext; [auto|]. intros p c' Hp Hc'. destruct (prs_in _ l1 l2 p P1 P2 Hp) as (_ & _ & Q1 & Q2). unfold pk in Hc'. replace (Z.of_nat k + 2 - 1) with (Z.of_nat k + 1) in * by lia. apply BB_agreeR; auto.
Qed.

Lemma W_agreeR F F' k l1 l2 mu r c b : agreeR (Z.of_nat k + 1) F F' -> is_part (Z.of_nat k + 2) l1 -> is_part (Z.of_nat k + 2) l2 -> is_part (Z.of_nat k + 1) mu -> Wv F k l1 l2 mu r c b = Wv F' k l1 l2 mu r c b.
Proof. intros A P1 P2 Pm. apply SS_agreeR; auto. Qed.

Lemma Mr_agreeR F F' k l1 l2 mu : agreeR (Z.of_nat k + 1) F F' -> is_part (Z.of_nat k + 2) l1 -> is_part (Z.of_nat k + 2) l2 -> is_part (Z.of_nat k + 1) mu -> Mr F k l1 l2 mu = Mr F' k l1 l2 mu.
Proof.
  intros A P1 P2 Pm. unfold Mr. apply mrows_ext; [reflexivity|reflexivity|]. cbn [m_at]. intros i j _ _. unfold Mm. apply rsum_ext. intros b _. rewrite (W_agreeR F F') by auto. f_equal. apply rsum_ext. intros b' _. rewrite (W_agreeR F F') by auto. reflexivity.
Qed.

Lemma raw_same E E' F F' k l1 l2 lam mu c a : E (Mr F k l1 l2 mu) = E' (Mr F' k l1 l2 mu) -> raw k l1 l2 (UU E F k l1 l2) (DDv E F k l1 l2) lam mu c a = raw k l1 l2 (UU E' F' k l1 l2) (DDv E' F' k l1 l2) lam mu c a.
Proof. intros H. unfold raw, si, sel, selb, UU, DDv. rewrite H. reflexivity. Qed.

Lemma fin_same E E' F F' k l1 l2 lam mu c a : agreeR (Z.of_nat k + 1) F F' -> is_part (Z.of_nat k + 2) l1 -> is_part (Z.of_nat k + 2) l2 -> is_part (Z.of_nat k + 1) mu -> is_part (Z.of_nat k + 1) (mu0 lam) ->
  E (Mr F k l1 l2 mu) = E' (Mr F' k l1 l2 mu) -> E (Mr F k l1 l2 (mu0 lam)) = E' (Mr F' k l1 l2 (mu0 lam)) ->
  fin F k l1 l2 (UU E F k l1 l2) (DDv E F k l1 l2) lam mu c a = fin F' k l1 l2 (UU E' F' k l1 l2) (DDv E' F' k l1 l2) lam mu c a.
Proof.
  intros A P1 P2 Pm P0 H H0. unfold fin. rewrite (raw_same E E' F F') by auto. destruct (aligned k lam mu); [|reflexivity]. apply rsum_ext. intros m Hm. rewrite (raw_same E E' F F') by auto. f_equal. f_equal. unfold Bm. apply rsum_ext. intros b Hb. f_equal.
  - apply rsum_ext. intros c' _. rewrite (W_agreeR F F') by auto. rewrite (raw_same E E' F F') by auto. reflexivity.
  - apply rsum_ext. intros b' _. f_equal. apply rsum_ext. intros c' _. rewrite (W_agreeR F F') by auto. rewrite (raw_same E E' F F') by auto. reflexivity.
Qed.

Lemma tables_R E k : exact E -> Z.of_nat k + 2 <= 1234567 -> rowz (cg_table E (S k)) k /\ orthN (Z.of_nat k + 2 - 1) (cg_table E (S k)) /\ agreeR (Z.of_nat k + 1) (cg_table E (S k)) (cg_learned E).
Proof.
  intros HE Hb. destruct (levels E HE k ltac:(lia)) as (LR & LO). pose proof (table_agree E (S k)) as A. replace (Z.of_nat (S k)) with (Z.of_nat k + 1) in A by lia. split; [apply (rowz_agree (cg_learned E)); [apply agree_sym; auto|auto]|]. split; [replace (Z.of_nat k + 2 - 1) with (Z.of_nat k + 1) by lia; apply (orthN_agree (cg_learned E)); [apply agree_sym; auto|auto]|apply agree_R; auto].
Qed.
Lemma tables_agreeR E E' k : exact E -> exact E' -> Z.of_nat k + 2 <= 1234567 -> agreeR (Z.of_nat k + 1) (cg_learned E) (cg_learned E') -> agreeR (Z.of_nat k + 1) (cg_table E (S k)) (cg_table E' (S k)).
Proof.
  intros HE HE' Hb A. destruct (tables_R E k HE Hb) as (_ & _ & T). destruct (tables_R E' k HE' Hb) as (_ & _ & T'). eapply agreeR_trans; [exact T|]. eapply agreeR_trans; [exact A|]. apply agreeR_sym. auto.
Qed.

Lemma mu0_part n lam : 2 <= n -> is_part n lam -> is_part (n - 1) (mu0 lam).
Proof. intros Hn P. destruct (boff_hd n lam Hn P) as (r & Hr & _ & <-). apply (corner_part n); auto. Qed.

Lemma same_below E E' : exact E -> exact E' -> forall N, Z.of_nat N + 1 <= 1234567 ->
  (forall k l1 l2 mu, (k < N)%nat -> is_part (Z.of_nat k + 2) l1 -> is_part (Z.of_nat k + 2) l2 -> is_part (Z.of_nat k + 1) mu -> let X := Mr (cg_table E (S k)) k l1 l2 mu in E X = E' X) -> agreeR (Z.of_nat N + 1) (cg_learned E) (cg_learned E').
Proof.
  intros HE HE' N. induction N as [|N IH]; intros Hb H; [intros m; lia|]. assert (agreeR (Z.of_nat N + 1) (cg_learned E) (cg_learned E')) as A by (apply IH; [lia|]; intros; apply H; auto).
  intros m a b mu i j Hm Pa Pb Pm Hi Hj. destruct (Z.eq_dec m (Z.of_nat N + 2)) as [->|Ne]; [|apply (A m); auto; lia]. replace (Z.of_nat N + 2 - 1) with (Z.of_nat N + 1) in Pm by lia.
  destruct (tables_R E N HE ltac:(lia)) as (R1 & O1 & _). destruct (tables_R E' N HE' ltac:(lia)) as (R2 & O2 & _). pose proof (tables_agreeR E E' N HE HE' ltac:(lia) A) as AT.
  assert (forall nu, is_part (Z.of_nat N + 1) nu -> E (Mr (cg_table E (S N)) N a b nu) = E' (Mr (cg_table E' (S N)) N a b nu)) as EM by (intros nu Pn; rewrite (H N) by (auto; lia); f_equal; apply Mr_agreeR; auto).
  assert (is_part (Z.of_nat N + 2 - 1) mu) as Pm' by (replace (Z.of_nat N + 2 - 1) with (Z.of_nat N + 1) by lia; auto).
  destruct (coff_find N a b Pa Pb mu j Pm' Hj) as (lam & c & Pl & Hbl & Hc & ->). assert (occ N a b lam mu) as O by (split; [auto|split; [auto|lia]]).
  rewrite (learned_cols E HE N a b Pa Pb ltac:(lia) R1 O1 lam mu i c O Hi Hc), (learned_cols E' HE' N a b Pa Pb ltac:(lia) R2 O2 lam mu i c O Hi Hc). apply fin_same; auto; [|apply EM]; pose proof (mu0_part (Z.of_nat N + 2) lam ltac:(lia) Pl) as Q; replace (Z.of_nat N + 2 - 1) with (Z.of_nat N + 1) in Q by lia; auto.
Qed.

(* ---- another exact routine ---- *)

Definition has (v : R) (D : list R) : bool := existsb (fun x => if Req_EM_T x v then true else false) D.
Lemma has_In v D : has v D = true <-> In v D.
Proof.
  unfold has. rewrite existsb_exists. split.
  - intros (x & Hx & H). destruct (Req_EM_T x v); [subst; auto|discriminate].
  - intros H. exists v. split; [auto|]. destruct (Req_EM_T v v); congruence.
Qed.
(* the eigenvectors for the eigenvalue -2 with the opposite sign, if 2 is an eigenvalue as well *)
Definition flip (E : list (list R) -> mat * list R) (X : list (list R)) : mat * list R :=
  let U := fst (E X) in let D := snd (E X) in
  if has 2 D && has (-2) D then (mkMat (m_n0 U) (m_n1 U) (fun c i => if Req_EM_T (nth (Z.to_nat i) D 0) (-2) then - m_at U c i else m_at U c i)%R, D) else E X.

Lemma flip_exact E : exact E -> exact (flip E).
Proof.
  intros HE X HX. pose proof (HE X HX) as H. unfold flip. cbv zeta. destruct (has 2 (snd (E X)) && has (-2) (snd (E X))); [|auto]. cbn [fst snd]. destruct H as (S & U0 & U1 & L & O & G). set (D := snd (E X)) in *. set (U := fst (E X)) in *.
  set (s := fun i => if Req_EM_T (nth (Z.to_nat i) D 0%R) (-2) then (-1)%R else 1%R). assert (forall i, (s i * s i = 1)%R) as SS by (intros i; unfold s; destruct (Req_EM_T (nth (Z.to_nat i) D 0%R) (-2)); ring).
  assert (forall c i, (if Req_EM_T (nth (Z.to_nat i) D 0) (-2) then - m_at U c i else m_at U c i)%R = (s i * m_at U c i)%R) as V by (intros c i; unfold s; destruct (Req_EM_T (nth (Z.to_nat i) D 0%R) (-2)); ring).
  split; [auto|]. cbn [m_n0 m_n1 m_at]. split; [auto|]. split; [auto|]. split; [auto|]. split.
  - intros i j Hi Hj. rewrite (rsum_ext _ _ (fun c => (s i * s j * (m_at U c i * m_at U c j))%R)) by (intros; rewrite !V; ring). rewrite rsum_scal, O by auto. destruct (Z.eq_dec i j) as [->|Ne]; [rewrite SS, delta_refl; ring|rewrite delta_ne by auto; ring].
  - intros c j Hc Hj. rewrite (rsum_ext _ _ (fun e => (s j * (entry X c e * m_at U e j))%R)) by (intros; rewrite V; ring). rewrite rsum_scal, G, V by auto. ring.
Qed.
Lemma flip_same E X : ~ (In 2%R (snd (E X)) /\ In (-2)%R (snd (E X))) -> flip E X = E X.
Proof. intros H. unfold flip. cbv zeta. destruct (has 2 (snd (E X))) eqn:A; [|reflexivity]. destruct (has (-2) (snd (E X))) eqn:B; [|reflexivity]. apply has_In in A, B. tauto. Qed.
