(* The Clebsch-Gordan product of vectors with one column in each part: the value that the recursion computes. *)
From Coq Require Import ZArith List Bool Lia Reals Lra Sorting.Sorted Permutation.
From Verif Require Import Model_Base Model_Perm Model_Sn Model_Part Model_Comb Model_Tab Model_Irrep Model_Type Model_FFT Model_Vec Model_Char Model_CG Model_CGvec.
From Verif Require Import Spec_Perm Spec_Part Spec_Tab Spec_Rep Spec_Four Spec_Type Spec_FFT Spec_Vec.
From Verif Require Import Proof_Base Proof_Perm Proof_Sn Proof_Part Proof_PartProps Proof_Tab Proof_TabProps Proof_Cycles Proof_Cox Proof_Yor Proof_Sum Proof_Irrep Proof_Rep Proof_Mat Proof_IrrepProps Proof_JM Proof_Conn Proof_Schur Proof_Restr Proof_UpDown Proof_Complete Proof_CharBank Proof_Type Proof_Rept Proof_FFTmath Proof_FFTlay Proof_FFTlay2 Proof_FFTblk Proof_FFTstep Proof_Vec Proof_Vec2 Proof_Vec3 Proof_Vec4 Proof_Vec5 Proof_Vec6 Proof_Vec8 Proof_Kron Proof_CG Proof_CGdown Proof_CGvec1.
Import ListNotations.
Open Scope Z_scope.

(* ---- the value ---- *)

Definition cgt (l1 l2 : list Z) : list (list Z * Z) := match cg_product cg0 l1 l2 with Ret (t, _) => t | _ => [] end.
Definition prs (l1 l2 : list Z) : list (Z * Z) := list_prod (corners l1) (corners l2).
Definition pk (n : Z) (l1 l2 mu : list Z) (p : Z * Z) : Z := kz (n - 1) (prem l1 (fst p)) (prem l2 (snd p)) mu.
Definition WW (n : Z) (l1 l2 mu : list Z) : Z := zsum_over (prs l1 l2) (pk n l1 l2 mu).
Definition lk (n : Z) (l1 l2 mu lam : list Z) : Z := if isin mu (belows lam) then kz n l1 l2 lam else 0.
Definition coff (n : Z) (l1 l2 lam mu : list Z) : Z := before pdec (lk n l1 l2 mu) (map fst (cgt l1 l2)) lam.

Fixpoint BB (F : ftable) (k : nat) (l1 l2 : list Z) (x y : Z -> R) (lam : list Z) (i j : Z) : R :=
  match k with
  | O => (x 0%Z * y 0%Z)%R
  | S k' =>
      let n := Z.of_nat k' + 2 in
      colsum (corners lam) (hrow n lam) (fun r a =>
        rsum (WW n l1 l2 (prem lam r)) (fun c =>
          (colsum (prs l1 l2) (pk n l1 l2 (prem lam r)) (fun p c =>
             BB F k' (prem l1 (fst p)) (prem l2 (snd p)) (fun u => x (boff n l1 (fst p) + u)%Z) (fun u => y (boff n l2 (snd p) + u)%Z) (prem lam r) a c) c
           * F l1 l2 (prem lam r) c (coff n l1 l2 lam (prem lam r) + j)%Z)%R)) i
  end.

Lemma cgt_ok n l1 l2 : 1 <= n -> is_part n l1 -> is_part n l2 -> prod_type n l1 l2 (cgt l1 l2) /\ forall b, ginv b -> exists b', cg_product b l1 l2 = Ret (cgt l1 l2, b') /\ ginv b'.
Proof.
  intros Hn P1 P2. destruct (cg_product_ok cg0 n l1 l2 ginv0 Hn P1 P2) as (t & b' & E & _ & PT). unfold cgt. rewrite E. split; [auto|]. intros b I. destruct (cg_product_ok b n l1 l2 I Hn P1 P2) as (t' & b2 & E' & I' & PT'). exists b2. rewrite E', (prod_type_unique n l1 l2 t' t PT' PT). auto.
Qed.

Lemma cgt_keys n l1 l2 lam : 1 <= n -> is_part n l1 -> is_part n l2 -> In lam (map fst (cgt l1 l2)) <-> is_part n lam /\ 0 < kz n l1 l2 lam.
Proof.
  intros Hn P1 P2. destruct (cgt_ok n l1 l2 Hn P1 P2) as (PT & _). pose proof PT as (T & _ & S). rewrite S. split; intros (A & B); split; auto; [rewrite <- (prod_type_kz n l1 l2 _ lam Hn P1 P2 PT A); auto|rewrite (prod_type_kz n l1 l2 _ lam Hn P1 P2 PT A); auto].
Qed.

Lemma kz_nonneg n a b c : 1 <= n -> is_part n a -> is_part n b -> is_part n c -> 0 <= kz n a b c.
Proof. intros. apply kz_ok; auto. Qed.

Lemma prs_in n l1 l2 p : is_part n l1 -> is_part n l2 -> In p (prs l1 l2) -> In (fst p) (corners l1) /\ In (snd p) (corners l2) /\ is_part (n - 1) (prem l1 (fst p)) /\ is_part (n - 1) (prem l2 (snd p)).
Proof. intros P1 P2 H. destruct p as (r, s). apply in_prod_iff in H as (H1 & H2). cbn [fst snd]. split; [auto|]. split; [auto|]. split; eapply corner_part; eauto. Qed.

Lemma pk_nonneg n l1 l2 mu p : 2 <= n -> is_part n l1 -> is_part n l2 -> is_part (n - 1) mu -> In p (prs l1 l2) -> 0 <= pk n l1 l2 mu p.
Proof. intros Hn P1 P2 Pm H. destruct (prs_in n l1 l2 p P1 P2 H) as (_ & _ & A & B). apply kz_nonneg; auto. lia. Qed.

Lemma dpos n l : 1 <= n -> is_part n l -> 0 < io_d (mkirr n l).
Proof.
  intros Hn P. destruct (mkirr_ok n l P Hn) as (_ & G). destruct (standard_exists (Z.to_nat n) l) as (t & St); [replace (Z.of_nat (Z.to_nat n)) with n by lia; auto|]. pose proof (pos_standard n l _ t G St). lia.
Qed.

Lemma BB_ext F k : forall l1 l2 x y x' y' lam i j, is_part (Z.of_nat k + 1) l1 -> is_part (Z.of_nat k + 1) l2 -> (forall u, 0 <= u < io_d (mkirr (Z.of_nat k + 1) l1) -> x u = x' u) -> (forall u, 0 <= u < io_d (mkirr (Z.of_nat k + 1) l2) -> y u = y' u) ->
  BB F k l1 l2 x y lam i j = BB F k l1 l2 x' y' lam i j.
Proof.
  induction k as [|k IH]; intros l1 l2 x y x' y' lam i j P1 P2 Hx Hy; cbn [BB].
  - rewrite Hx, Hy; auto.
    + pose proof (dpos (Z.of_nat 0 + 1) l2 ltac:(lia) P2). lia.
    + pose proof (dpos (Z.of_nat 0 + 1) l1 ltac:(lia) P1). lia.
  - replace (Z.of_nat (S k) + 1) with (Z.of_nat k + 2) in * by lia. set (n := Z.of_nat k + 2) in *. cbv zeta. apply colsum_ext; [auto|]. intros r a Hr Ha. apply rsum_ext. intros c Hc. f_equal. apply colsum_ext; [auto|]. intros p c' Hp Hc'.
    destruct (prs_in n l1 l2 p P1 P2 Hp) as (R1 & R2 & Q1 & Q2). replace (Z.of_nat k + 1) with (n - 1) in IH by lia. apply IH; auto; intros u Hu.
    + apply Hx. destruct (boff_fit n l1 (fst p) P1 ltac:(lia) R1) as (B1 & B2). fold (hrow n l1 (fst p)) in B2. unfold hrow in B2. lia.
    + apply Hy. destruct (boff_fit n l2 (snd p) P2 ltac:(lia) R2) as (B1 & B2). fold (hrow n l2 (snd p)) in B2. unfold hrow in B2. lia.
Qed.

(* ---- types of vectors that are not sorted ---- *)

Lemma type_unsorted n v : vgood n v -> exists t, sv_type v = Ret t /\ type_of n t /\ Permutation t (map (fun P => (key P, m_n1 (sp_mat P))) v).
Proof.
  intros (Hv & N). unfold sv_type.
  assert (forall t0, type_of n t0 -> exists t', foldM (fun P R => ty_set R (io_lambda (sp_irr P)) (m_n1 (sp_mat P))) v t0 = Ret t' /\ type_of n t' /\ (forall x, In x (map fst t') <-> In x (map key v) \/ In x (map fst t0)) /\
     (forall P, In P v -> mult t' (key P) = m_n1 (sp_mat P)) /\ (forall x, ~ In x (map key v) -> mult t' x = mult t0 x)) as K.
  { induction v as [|P v IH]; intros t0 T0; cbn [foldM].
    - exists t0. split; [auto|]. split; [auto|]. split; [cbn; tauto|]. split; [intros P []|auto].
    - cbn [map] in N. inversion N as [|? ? N1 N2]; subst. fold (key P). destruct (set_ok n t0 (key P) (m_n1 (sp_mat P)) T0) as (t1 & E1 & T1 & I1 & M1); [apply Hv; left; auto|]. rewrite E1. cbn [bind].
      destruct (IH (fun Q HQ => Hv Q (or_intror HQ)) N2 t1 T1) as (t' & E' & T' & I' & M' & O'). exists t'. split; [auto|]. split; [auto|]. split; [intros x; rewrite I', I1; cbn [map In]; intuition congruence|]. split.
      + intros Q [<-|HQ]; [|apply M'; auto]. rewrite O', M1 by auto. destruct (pdec (key P) (key P)); congruence.
      + intros x Nx. cbn [map In] in Nx. rewrite O', M1 by tauto. destruct (pdec (key P) x); [tauto|auto]. }
  destruct (K [] (type_nil n)) as (t & E & T & I & M & _). exists t. split; [auto|]. split; [auto|]. pose proof (type_nodup n t T) as Nt. apply NoDup_Permutation.
  - apply (NoDup_map_inv fst). auto.
  - apply (NoDup_map_inv fst). rewrite map_map. cbn [fst]. auto.
  - intros (l, m). rewrite in_map_iff. split.
    + intros H. assert (In l (map key v)) as Hl by (destruct (proj1 (I l)) as [|[]]; auto; apply (in_map fst) in H; exact H). apply in_map_iff in Hl as (P & <- & HP). exists P. split; [|auto]. f_equal. rewrite <- (M P HP). apply mult_in; auto.
    + intros (P & E' & HP). injection E' as <- <-. assert (In (key P) (map fst t)) as Hk by (apply I; left; apply in_map; auto). apply in_map_iff in Hk as ((l, m) & E2 & H2). cbn [fst] in E2. subst l. rewrite <- (M P HP), (mult_in t (key P) m) by auto. auto.
Qed.

(* ---- one pair of parts, and many ---- *)

Definition col (P : spart) (u : Z) : R := m_at (sp_mat P) u 0.
Definition unitp (n : Z) (P : spart) : Prop := pgood n P /\ m_n1 (sp_mat P) = 1.
Definition hh (n : Z) (lam : list Z) (pq : spart * spart) : Z := kz n (key (fst pq)) (key (snd pq)) lam.
Definition gg (F : ftable) (k : nat) (lam : list Z) (i : Z) (pq : spart * spart) (c : Z) : R := BB F k (key (fst pq)) (key (snd pq)) (col (fst pq)) (col (snd pq)) lam i c.

Definition bump (F : ftable) (n : Z) (k : nat) (o0 : list (list Z * Z)) (ps : list (spart * spart)) (P P' : spart) : Prop :=
  sp_irr P' = sp_irr P /\ m_n0 (sp_mat P') = m_n0 (sp_mat P) /\ m_n1 (sp_mat P') = m_n1 (sp_mat P) /\
  forall i j, 0 <= i < io_d (mkirr n (key P)) -> m_at (sp_mat P') i j = (m_at (sp_mat P) i j + colsum ps (hh n (key P)) (gg F k (key P) i) (j - mult o0 (key P))%Z)%R.

Definition room (n : Z) (R0 : list spart) (o0 : list (list Z * Z)) (ps : list (spart * spart)) : Prop :=
  forall lam, is_part n lam -> 0 <= mult o0 lam /\ ((exists pq, In pq ps /\ 0 < hh n lam pq) -> In lam (map key R0) /\ mult o0 lam + zsum_over ps (hh n lam) <= m_n1 (sp_mat (vfind R0 lam))).

Definition acc_ok (F : ftable) (k : nat) : Prop := forall n b R0 o0 x y, n = Z.of_nat k + 1 -> ginv b -> unitp n x -> unitp n y -> vgood n R0 -> type_of n o0 -> (k = O -> mult o0 [1] = 0) -> room n R0 o0 [(x, y)] ->
  exists R o b', cg_acc F (S k) b R0 o0 x y = Ret (R, o, b') /\ ginv b' /\ type_of n o /\ (forall lam, is_part n lam -> mult o lam = mult o0 lam + hh n lam (x, y)) /\ Forall2 (bump F n k o0 [(x, y)]) R0 R.

Lemma hh_nonneg n lam pq : 1 <= n -> is_part n lam -> unitp n (fst pq) -> unitp n (snd pq) -> 0 <= hh n lam pq.
Proof. intros Hn Pl ((A & _) & _) ((B & _) & _). unfold hh. exact (kz_nonneg n _ _ lam Hn A B Pl). Qed.

(* the parts keep their irreps and sizes *)
Lemma keep_good n (rel : spart -> spart -> Prop) R0 R : (forall P P', In P R0 -> rel P P' -> sp_irr P' = sp_irr P /\ m_n0 (sp_mat P') = m_n0 (sp_mat P) /\ m_n1 (sp_mat P') = m_n1 (sp_mat P)) -> Forall2 rel R0 R -> vgood n R0 ->
  vgood n R /\ map key R = map key R0 /\ forall lam, m_n1 (sp_mat (vfind R lam)) = m_n1 (sp_mat (vfind R0 lam)).
Proof.
  intros H F (G & N).
  assert (map key R = map key R0 /\ (forall lam, m_n1 (sp_mat (vfind R lam)) = m_n1 (sp_mat (vfind R0 lam))) /\ forall Q, In Q R -> pgood n Q) as (K & V & G').
  { clear N. induction F as [|P P' R0 R HP F IH]; [split; [auto|]; split; [auto|intros Q []]|]. destruct (IH (fun a b Ha => H a b (or_intror Ha)) (fun Q HQ => G Q (or_intror HQ))) as (K & V & G').
    destruct (H P P' (or_introl eq_refl) HP) as (E1 & E2 & E3). assert (key P' = key P) as EK by (unfold key; rewrite E1; auto). split; [cbn [map]; rewrite K, EK; auto|]. split.
    - intros lam. unfold vfind. cbn [find]. rewrite EK. destruct (pdec (key P) lam); [auto|]. apply V.
    - intros Q [<-|HQ]; [|apply G'; auto]. destruct (G P (or_introl eq_refl)) as (A & B & C & D). unfold pgood. rewrite EK, E1, E2, E3. auto. }
  split; [split; [exact G'|rewrite K; auto]|]. auto.
Qed.

Lemma bump_keep F n k o0 ps P P' : bump F n k o0 ps P P' -> sp_irr P' = sp_irr P /\ m_n0 (sp_mat P') = m_n0 (sp_mat P) /\ m_n1 (sp_mat P') = m_n1 (sp_mat P).
Proof. intros (A & B & C & _). auto. Qed.

Lemma fold_ok F k : acc_ok F k -> forall n ps b R0 o0, n = Z.of_nat k + 1 -> ginv b -> (forall pq, In pq ps -> unitp n (fst pq) /\ unitp n (snd pq)) -> vgood n R0 -> type_of n o0 -> (k = O -> ps = [] \/ (exists p, ps = [p]) /\ mult o0 [1] = 0) -> room n R0 o0 ps ->
  exists R o b', foldM (fun pq st => let '(R, offs, b) := st in cg_acc F (S k) b R offs (fst pq) (snd pq)) ps (R0, o0, b) = Ret (R, o, b') /\ ginv b' /\ type_of n o /\ Forall2 (bump F n k o0 ps) R0 R.
Proof.
  intros A n. induction ps as [|pq ps IH]; intros b R0 o0 En I U G T Hk Rm; cbn [foldM].
  - exists R0, o0, b. split; [auto|]. split; [auto|]. split; [auto|]. clear. induction R0 as [|P R0 IH]; constructor; auto. split; [auto|]. split; [auto|]. split; [auto|]. intros. cbn [colsum]. ring.
  - destruct (U pq (or_introl eq_refl)) as (U1 & U2). assert (forall lam, is_part n lam -> 0 <= hh n lam pq) as Hp by (intros; apply hh_nonneg; auto; lia).
    assert (forall lam, is_part n lam -> 0 <= zsum_over ps (hh n lam)) as Hps by (intros lam Pl; apply zsum_nonneg; intros q Hq; destruct (U q (or_intror Hq)); apply hh_nonneg; auto; lia).
    destruct (A n b R0 o0 (fst pq) (snd pq) En I U1 U2 G T) as (R1 & o1 & b1 & E1 & I1 & T1 & M1 & F1).
    { intros ->. destruct (Hk eq_refl) as [|(_ & ?)]; [discriminate|auto]. }
    { intros lam Pl. destruct (Rm lam Pl) as (R1 & R2). split; [auto|]. intros (q & [<-|[]] & Hq). destruct R2 as (R2 & R3); [exists pq; split; [left; auto|destruct pq; auto]|]. split; [auto|]. rewrite zsum_over_cons in R3. specialize (Hps lam Pl). rewrite zsum_over_cons, zsum_over_nil. destruct pq; cbn [fst snd]. lia. }
    rewrite E1. cbn [bind]. destruct (keep_good n _ R0 R1 (fun P P' _ => bump_keep F n k o0 _ P P') F1 G) as (G1 & K1 & V1).
    replace (fst pq, snd pq) with pq in * by (destruct pq; auto).
    destruct (IH b1 R1 o1 En I1 (fun q Hq => U q (or_intror Hq)) G1 T1) as (R & o & b' & E & I' & T' & F').
    { intros Ek. destruct (Hk Ek) as [|((p & Ep) & _)]; [discriminate|]. injection Ep as _ ->. left; auto. }
    { intros lam Pl. destruct (Rm lam Pl) as (R2 & R3). rewrite M1 by auto. specialize (Hp lam Pl). split; [lia|]. intros (q & Hq & Hq'). destruct R3 as (R3 & R4); [exists q; split; [right; auto|auto]|]. rewrite zsum_over_cons in R4. rewrite K1, V1. split; [auto|]. lia. }
    exists R, o, b'. split; [auto|]. split; [auto|]. split; [auto|]. eapply Forall2_trans; [|exact F1|exact F']. intros P P1 P2 HP (A1 & A2 & A3 & A4) (B1 & B2 & B3 & B4).
    assert (key P1 = key P) as EK by (unfold key; rewrite A1; auto). rewrite EK in B4. split; [congruence|]. split; [congruence|]. split; [congruence|]. intros i j Hi. rewrite B4, A4 by auto. cbn [colsum]. rewrite M1 by (apply G; auto).
    replace (j - (mult o0 (key P) + hh n (key P) pq)) with (j - mult o0 (key P) - hh n (key P) pq) by lia. ring.
Qed.

(* ---- vectors ---- *)

Lemma zsum_Forall2 {A B} (Q : A -> B -> Prop) X Y f g : Forall2 Q X Y -> (forall x y, In x X -> Q x y -> f x = g y) -> zsum_over X f = zsum_over Y g.
Proof. induction 1 as [|x y X Y H F IH]; intros E; auto. rewrite !zsum_over_cons, (E x y (or_introl eq_refl) H), IH; auto. intros; apply E; [right|]; auto. Qed.

Lemma Forall2_prod {A B C D} (Q : A -> B -> Prop) (S : C -> D -> Prop) X Y V W : Forall2 Q X Y -> Forall2 S V W -> Forall2 (fun p q => Q (fst p) (fst q) /\ S (snd p) (snd q)) (list_prod X V) (list_prod Y W).
Proof.
  intros FX FV. induction FX as [|x y X Y H F IH]; cbn [list_prod]; [constructor|]. apply Forall2_app; [|auto]. clear - H FV. induction FV as [|v w V W H' F IH]; cbn [map]; constructor; auto.
Qed.

Definition ugood (n : Z) (v : list spart) : Prop := vgood n v /\ forall P, In P v -> m_n1 (sp_mat P) = 1.

Lemma type_units n v : ugood n v -> exists t, sv_type v = Ret t /\ type_of n t /\ Permutation t (map (fun P => (key P, 1)) v).
Proof. intros (G & U). destruct (type_unsorted n v G) as (t & E & T & P). exists t. split; [auto|]. split; [auto|]. rewrite P. erewrite map_ext_in; [reflexivity|]. intros Q HQ. cbn. rewrite U; auto. Qed.

(* the result T of the types in terms of the vectors *)
Lemma units_tprod n x y tx ty T : Permutation tx (map (fun P => (key P, 1)) x) -> Permutation ty (map (fun P => (key P, 1)) y) -> tprod n tx ty T ->
  (forall c, is_part n c -> mult T c = zsum_over (list_prod x y) (hh n c)) /\ (forall c, In c (map fst T) <-> is_part n c /\ exists pq, In pq (list_prod x y) /\ 0 < hh n c pq).
Proof.
  intros Px Py (_ & M & K). split.
  - intros c Pc. rewrite M by auto. rewrite (zsum_over_Perm _ _ _ Px), zsum_over_map. unfold hh. rewrite (zsum_list_prod x y (fun p q => kz n (key p) (key q) c)). apply zsum_over_ext. intros p Hp. rewrite (zsum_over_Perm _ _ _ Py), zsum_over_map. apply zsum_over_ext. intros q Hq. cbn [fst snd]. lia.
  - intros c. rewrite K. split; intros (Pc & H); split; auto.
    + destruct H as (p & q & Hp & Hq & Hk). apply (Permutation_in _ Px) in Hp. apply (Permutation_in _ Py) in Hq. apply in_map_iff in Hp as (P & <- & HP). apply in_map_iff in Hq as (Q & <- & HQ). exists (P, Q). split; [apply in_prod_iff; auto|exact Hk].
    + destruct H as ((P, Q) & H & Hk). apply in_prod_iff in H as (HP & HQ). exists (key P, 1), (key Q, 1). split; [apply (Permutation_in _ (Permutation_sym Px)); apply in_map_iff; exists P; auto|]. split; [apply (Permutation_in _ (Permutation_sym Py)); apply in_map_iff; exists Q; auto|exact Hk].
Qed.

Definition vprod (F : ftable) (n : Z) (k : nat) (x y : list spart) (R : list spart) : Prop :=
  forall P, In P R -> forall i j, 0 <= i < io_d (mkirr n (key P)) -> m_at (sp_mat P) i j = colsum (list_prod x y) (hh n (key P)) (gg F k (key P) i) j.

Lemma vec_ok F k (acc : cgbank -> list spart -> stype -> spart -> spart -> outcome (list spart * stype * cgbank)) : acc_ok F k -> forall n b x y, n = Z.of_nat k + 1 -> ginv b -> ugood n x -> ugood n y -> (forall b R o p q, In p x -> acc b R o p q = cg_acc F (S k) b R o p q) ->
  exists tx ty T R b', sv_type x = Ret tx /\ sv_type y = Ret ty /\ type_of n tx /\ type_of n ty /\ Permutation tx (map (fun P => (key P, 1)) x) /\ Permutation ty (map (fun P => (key P, 1)) y) /\ tprod n tx ty T /\
    cg_vec_with acc b x y = Ret (R, b') /\ ginv b' /\ vec_of T R /\ vprod F n k x y R.
Proof.
  intros A n b x y En I Ux Uy Ea. destruct (type_units n x Ux) as (tx & Ex & Tx & Px), (type_units n y Uy) as (ty & Ey & Ty & Py).
  destruct (cg_types_ok b n tx ty I ltac:(lia) Tx Ty) as (T & b1 & ET & I1 & PT). destruct (units_tprod n x y tx ty T Px Py PT) as (MT & KT). pose proof PT as (TT & _).
  assert (forall pq, In pq (list_prod x y) -> unitp n (fst pq) /\ unitp n (snd pq)) as U. { intros (p, q) H. apply in_prod_iff in H as (H1 & H2). destruct Ux as ((Gx & _) & Ux), Uy as ((Gy & _) & Uy). split; split; cbn; auto; [apply Gx|apply Gy]; auto. }
  assert (forall lam, is_part n lam -> 0 <= mult T lam) as Hm. { intros lam Pl. rewrite MT by auto. apply zsum_nonneg. intros pq Hpq. destruct (U pq Hpq). apply hh_nonneg; auto. lia. }
  pose proof (type_nodup n T TT) as NT. assert (forall p, In p T -> is_part n (fst p) /\ 0 <= snd p) as Tp. { intros (l, m) Hp. pose proof TT as (_ & FT). rewrite Forall_forall in FT. assert (is_part n l) as Pl by (apply FT; apply (in_map fst) in Hp; exact Hp). split; [exact Pl|]. cbn [snd]. rewrite <- (mult_in T l m) by auto. auto. }
  pose proof (zero_vec n T ltac:(lia) Tp) as VZ. destruct (vec_good n T _ ltac:(lia) VZ (proj2 TT) NT) as (GZ & KZ & FZ).
  destruct (fold_ok F k A n (list_prod x y) b1 (map (zp n) T) [] En I1 U GZ (type_nil n)) as (R & o & b' & E & I' & _ & F2).
  { intros Ek. subst k. destruct Ux as ((Gx & Nx) & _), Uy as ((Gy & Ny) & _). assert (forall v, NoDup (map key v) -> (forall Q, In Q v -> is_part 1 (key Q)) -> v = [] \/ exists Q, v = [Q]) as One.
    { clear. intros v N G. destruct v as [|P [|Q v]]; [left; auto|right; eauto|]. exfalso. cbn [map] in N. inversion N as [|? ? N1 _]; subst. apply N1. left. rewrite (is_part_1 (key P)), (is_part_1 (key Q)); auto; apply G; cbn; auto. }
    change (n = 1) in En. subst n. destruct (One x Nx) as [->|(p & ->)]; [intros Q HQ; apply Gx; auto|left; auto|]. destruct (One y Ny) as [->|(q & ->)]; [intros Q HQ; apply Gy; auto|left; auto|]. right. split; [exists (p, q); auto|auto]. }
  { intros lam Pl. split; [cbn; lia|]. intros Hx. rewrite KZ. assert (In lam (map fst T)) as Hl by (apply KT; auto). split; [auto|]. rewrite <- MT by auto. apply in_map_iff in Hl as ((l, m) & E & Hl). cbn [fst] in E. subst l. destruct (FZ lam m Hl) as (_ & _ & ->). rewrite (mult_in T lam m) by auto. cbn. lia. }
  exists tx, ty, T, R, b'. do 7 (split; [auto|]). split; [|split; [auto|split]].
  - unfold cg_vec_with. rewrite Ex. cbn [bind]. rewrite Ey. cbn [bind]. rewrite ET. cbn [bind]. rewrite (sv_zero_ok n) by (auto; lia). cbn [bind]. unfold cg_add. rewrite (foldM_prod (fun p q st => let '(R, offs, b) := st in acc b R offs p q)).
    erewrite foldM_ext; [rewrite E; reflexivity|]. intros (p, q) ((R1, o1), b2) H. apply in_prod_iff in H as (H1 & _). cbn [fst snd]. apply Ea; auto.
  - unfold vec_of. apply (proj1 (Forall2_map_l _ _ _ _)) in F2. eapply Forall2_mono; [|exact F2]. intros p P Hp (B1 & B2 & B3 & _). destruct (Tp p Hp) as (T1 & T2). apply (good_part n); auto. lia.
  - intros P HP i j Hi. destruct (Forall2_in_r _ _ _ _ F2 HP) as (P0 & HP0 & B1 & B2 & B3 & B4). assert (key P = key P0) as EK by (unfold key; rewrite B1; auto). rewrite EK in *. rewrite B4 by auto. apply in_map_iff in HP0 as (p & <- & Hp). cbn [zp sp_mat m_at]. cbn [mult]. rewrite Z.sub_0_r. ring.
Qed.
