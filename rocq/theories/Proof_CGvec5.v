(* The Clebsch-Gordan product of vectors: histories, bilinearity, inner products, the smaller group. *)
From Coq Require Import ZArith List Bool Lia Reals Lra Sorting.Sorted Permutation.
From Verif Require Import Model_Base Model_Perm Model_Sn Model_Part Model_Comb Model_Tab Model_Irrep Model_Type Model_FFT Model_Vec Model_Char Model_CG Model_CGvec.
From Verif Require Import Spec_Perm Spec_Part Spec_Tab Spec_Rep Spec_Four Spec_Type Spec_FFT Spec_Vec Spec_CG Spec_CGvec.
From Verif Require Import Proof_Base Proof_Perm Proof_Sn Proof_Part Proof_PartProps Proof_Tab Proof_TabProps Proof_Cycles Proof_Cox Proof_Yor Proof_Sum Proof_Irrep Proof_Rep Proof_Mat Proof_IrrepProps Proof_JM Proof_Conn Proof_Schur Proof_Restr Proof_UpDown Proof_Complete Proof_CharBank Proof_Type Proof_Rept Proof_FFTmath Proof_FFTlay Proof_FFTlay2 Proof_FFTblk Proof_FFTstep Proof_Vec Proof_Vec2 Proof_Vec3 Proof_Vec4 Proof_Vec5 Proof_Vec6 Proof_Vec7 Proof_Vec8 Proof_Kron Proof_CG Proof_CGdown Proof_CGvec1 Proof_CGvec2 Proof_CGvec3 Proof_CGvec4.
Import ListNotations.
Open Scope Z_scope.

Lemma one_ugood n v : 1 <= n -> one_columns n v <-> ugood n v.
Proof.
  intros Hn. split.
  - intros (N & H). assert (forall P, In P v -> pgood n P /\ m_n1 (sp_mat P) = 1) as K. { intros P HP. destruct (H P HP) as (l & Pl & Q). destruct (part_pgood n l 1 P Pl Hn Q) as (A & _ & B). auto. }
    split; [split; [intros P HP; apply K; auto|exact N]|intros P HP; apply K; auto].
  - intros ((G & N) & U). split; [exact N|]. intros P HP. destruct (G P HP) as (A & B & C & D). exists (key P). split; [auto|]. apply (good_part n); auto. lia.
Qed.

(* what a product is *)
Definition pr (F : ftable) (n : Z) (x y R : list spart) : Prop :=
  exists tx ty T, sv_type x = Ret tx /\ sv_type y = Ret ty /\ type_of n tx /\ type_of n ty /\ Permutation tx (map (fun P => (key P, 1)) x) /\ Permutation ty (map (fun P => (key P, 1)) y) /\ tprod n tx ty T /\
    vec_of T R /\ vprod F n (Z.to_nat (n - 1)) x y R.

Lemma cg_vec_ok F n b x y : 1 <= n -> ginv b -> ugood n x -> ugood n y -> exists R b', cg_vec F b x y = Ret (R, b') /\ ginv b' /\ pr F n x y R.
Proof.
  intros Hn I Ux Uy. destruct (vec_ok F (Z.to_nat (n - 1)) (fun b R offs p q => cg_acc F (Z.to_nat (io_n (sp_irr p))) b R offs p q) (acc_all F _) n b x y ltac:(lia) I Ux Uy) as (tx & ty & T & R & b' & E1 & E2 & T1 & T2 & P1 & P2 & PT & E & I' & V & VP).
  { intros b0 R o p q Hp. destruct Ux as ((G & _) & _). destruct (G p Hp) as (_ & Ep & _). rewrite Ep. cbn [mkirr io_n]. replace (Z.to_nat n) with (S (Z.to_nat (n - 1))) by lia. reflexivity. }
  exists R, b'. split; [exact E|]. split; [auto|]. exists tx, ty, T. auto 10.
Qed.

Lemma cg_part_ok F n b x y : 1 <= n -> ginv b -> ugood n [x] -> ugood n [y] -> exists R b', cg_part F b x y = Ret (R, b') /\ ginv b' /\ pr F n [x] [y] R.
Proof.
  intros Hn I Ux Uy. destruct (type_units n [x] Ux) as (tx & Ex & Tx & Px), (type_units n [y] Uy) as (ty & Ey & Ty & Py).
  assert (tx = [(key x, 1)]) as Etx by (apply Permutation_length_1_inv, Permutation_sym; exact Px). assert (ty = [(key y, 1)]) as Ety by (apply Permutation_length_1_inv, Permutation_sym; exact Py).
  assert (unitp n x) as U1. { destruct Ux as ((G & _) & U). split; [apply G|apply U]; left; auto. } assert (unitp n y) as U2. { destruct Uy as ((G & _) & U). split; [apply G|apply U]; left; auto. }
  pose proof (proj1 (proj1 U1)) as X1. pose proof (proj1 (proj1 U2)) as Y1. destruct (cgt_ok n (key x) (key y) Hn X1 Y1) as (PT0 & EC). destruct (EC b I) as (b1 & E1 & I1). set (T := cgt (key x) (key y)) in *.
  assert (tprod n tx ty T) as PT by (rewrite Etx, Ety; apply prod_tprod; auto). destruct (units_tprod n [x] [y] tx ty T Px Py PT) as (MT & KT). pose proof PT as (TT & _).
  assert (forall lam, is_part n lam -> 0 <= mult T lam) as Hm. { intros lam Pl. rewrite MT by auto. apply zsum_nonneg. intros pq [<-|[]]. apply hh_nonneg; auto. }
  pose proof (type_nodup n T TT) as NT. assert (forall p, In p T -> is_part n (fst p) /\ 0 <= snd p) as Tp. { intros (l, m) Hp. pose proof TT as (_ & FT). rewrite Forall_forall in FT. assert (is_part n l) as Pl by (apply FT; apply (in_map fst) in Hp; exact Hp). split; [exact Pl|]. cbn [snd]. rewrite <- (mult_in T l m) by auto. auto. }
  pose proof (zero_vec n T Hn Tp) as VZ. destruct (vec_good n T _ Hn VZ (proj2 TT) NT) as (GZ & KZ & FZ).
  destruct (acc_all F (Z.to_nat (n - 1)) n b1 (map (zp n) T) [] x y ltac:(lia) I1 U1 U2 GZ (type_nil n) (fun _ => eq_refl)) as (R & o & b' & E & I' & _ & _ & F2).
  { intros lam Pl. split; [cbn; lia|]. intros Hx. rewrite KZ. assert (In lam (map fst T)) as Hl by (apply KT; auto). split; [auto|]. change [(x, y)] with (list_prod [x] [y]). rewrite <- MT by auto. apply in_map_iff in Hl as ((l, m) & El & Hl). cbn [fst] in El. subst l. destruct (FZ lam m Hl) as (_ & _ & ->). rewrite (mult_in T lam m) by auto. cbn. lia. }
  exists R, b'. split; [|split; [auto|]].
  - unfold cg_part. change (io_lambda (sp_irr x)) with (key x). change (io_lambda (sp_irr y)) with (key y). rewrite E1. cbn [bind]. rewrite (sv_zero_ok n) by auto. cbn [bind]. rewrite (proj1 (proj2 (proj1 U1))). cbn [mkirr io_n]. replace (Z.to_nat n) with (S (Z.to_nat (n - 1))) by lia. rewrite E. reflexivity.
  - exists tx, ty, T. do 7 (split; [auto|]). split.
    + unfold vec_of. apply (proj1 (Forall2_map_l _ _ _ _)) in F2. eapply Forall2_mono; [|exact F2]. intros p P Hp (B1 & B2 & B3 & _). destruct (Tp p Hp) as (T1 & T2). apply (good_part n); auto.
    + intros P HP i j Hi. destruct (Forall2_in_r _ _ _ _ F2 HP) as (P0 & HP0 & B1 & B2 & B3 & B4). assert (key P = key P0) as EK by (unfold key; rewrite B1; auto). rewrite EK in *. rewrite B4 by auto. apply in_map_iff in HP0 as (p & <- & Hp). cbn [zp sp_mat m_at]. cbn [mult]. rewrite Z.sub_0_r. cbn [list_prod map app]. ring.
Qed.

Lemma cvstep_ok F q b : ginv b -> legal_cvq q -> exists a b', cvstep F q b = Ret (a, b') /\ ginv b'.
Proof.
  intros I L. destruct q as [q|x y|x y]; cbn [legal_cvq cvstep] in *.
  - destruct (cgstep_ok q b I L) as (a & b' & E & I' & _). rewrite E. cbn [bind fst snd]. eexists _, _. split; [reflexivity|auto].
  - destruct L as (n & Hn & X & Y). apply one_ugood in X; auto. apply one_ugood in Y; auto. destruct (cg_vec_ok F n b x y Hn I X Y) as (R & b' & E & I' & _). rewrite E. cbn [bind fst snd]. eexists _, _. split; [reflexivity|auto].
  - destruct L as (n & Hn & X & Y). apply one_ugood in X; auto. apply one_ugood in Y; auto. destruct (cg_part_ok F n b x y Hn I X Y) as (R & b' & E & I' & _). rewrite E. cbn [bind fst snd]. eexists _, _. split; [reflexivity|auto].
Qed.

Lemma cvrun_last F qs q : forall b, ginv b -> Forall legal_cvq qs -> exists aa b', ginv b' /\ cvrun F (qs ++ [q]) b = (r <- cvstep F q b' ;; Ret (aa ++ [fst r], snd r)).
Proof.
  induction qs as [|p qs IH]; intros b I L; cbn [app cvrun].
  - exists [], b. split; [auto|]. destruct (cvstep F q b) as [r| | |]; reflexivity.
  - inversion L as [|? ? L1 L2]; subst. destruct (cvstep_ok F p b I L1) as (a & b1 & E & I1). rewrite E. cbn [bind fst snd]. destruct (IH b1 I1 L2) as (aa & b' & I' & E'). exists (a :: aa), b'. split; [auto|]. rewrite E'. destruct (cvstep F q b') as [r| | |]; reflexivity.
Qed.

(* the value of a product, whatever was requested before *)
Lemma product_pr F n x y R : 1 <= n -> one_columns n x -> one_columns n y -> product_is F x y R -> pr F n x y R.
Proof.
  intros Hn X Y (qs & aa & st & L & E). apply one_ugood in X; auto. apply one_ugood in Y; auto. destruct (cvrun_last F qs (CVec x y) cg0 ginv0 L) as (aa' & b' & I' & E'). rewrite E' in E. cbn [cvstep] in E.
  destruct (cg_vec_ok F n b' x y Hn I' X Y) as (R' & b2 & E2 & _ & P). rewrite E2 in E. cbn [bind fst snd] in E. injection E as E _. apply app_inj_tail in E as (_ & E). injection E as <-. auto.
Qed.

Lemma product_exists F n x y qs : 1 <= n -> one_columns n x -> one_columns n y -> Forall legal_cvq qs -> exists aa st R, cvrun F (qs ++ [CVec x y]) cg0 = Ret (aa ++ [RVec R], st) /\ pr F n x y R.
Proof.
  intros Hn X Y L. apply one_ugood in X; auto. apply one_ugood in Y; auto. destruct (cvrun_last F qs (CVec x y) cg0 ginv0 L) as (aa' & b' & I' & E'). cbn [cvstep] in E'.
  destruct (cg_vec_ok F n b' x y Hn I' X Y) as (R' & b2 & E2 & _ & P). rewrite E2 in E'. cbn [bind fst snd] in E'. eauto 6.
Qed.

Lemma part_exists F n x y qs : 1 <= n -> one_columns n [x] -> one_columns n [y] -> Forall legal_cvq qs -> exists aa st R, cvrun F (qs ++ [CPart x y]) cg0 = Ret (aa ++ [RVec R], st) /\ pr F n [x] [y] R.
Proof.
  intros Hn X Y L. apply one_ugood in X; auto. apply one_ugood in Y; auto. destruct (cvrun_last F qs (CPart x y) cg0 ginv0 L) as (aa' & b' & I' & E'). cbn [cvstep] in E'.
  destruct (cg_part_ok F n b' x y Hn I' X Y) as (R' & b2 & E2 & _ & P). rewrite E2 in E'. cbn [bind fst snd] in E'. eauto 6.
Qed.

Lemma vec_of_parts n T R : 1 <= n -> type_of n T -> vec_of T R -> forall P, In P R -> pgood n P.
Proof. intros Hn (_ & F) V. apply (vec_pgood n T); auto. rewrite Forall_forall in F. intros p Hp. apply F, in_map. auto. Qed.

Lemma Forall2_join {A B C} (Q : A -> B -> Prop) (S : A -> C -> Prop) X Y W : Forall2 Q X Y -> Forall2 S X W -> Forall2 (fun y w => In y Y /\ In w W /\ exists x, In x X /\ Q x y /\ S x w) Y W.
Proof.
  intros F. revert W. induction F as [|x y X Y H F IH]; intros W G; inversion G as [|? w ? W' H' G']; subst; constructor.
  - split; [left; auto|]. split; [left; auto|]. exists x. split; [left; auto|auto].
  - eapply Forall2_mono; [|apply IH; eauto]. intros a c Ha (A1 & A2 & x0 & A3 & A4). split; [right; auto|]. split; [right; auto|]. exists x0. split; [right; auto|auto].
Qed.

(* two vectors of one type *)
Lemma vec_pair n T R R' : 1 <= n -> type_of n T -> vec_of T R -> vec_of T R' -> Forall2 (fun P Q => In P R /\ In Q R' /\ sp_irr P = sp_irr Q /\ m_n0 (sp_mat P) = m_n0 (sp_mat Q) /\ m_n1 (sp_mat P) = m_n1 (sp_mat Q)) R R'.
Proof.
  intros Hn T0 V V'. eapply Forall2_mono; [|exact (Forall2_join _ _ _ _ _ V V')]. intros P Q _ (A & B & p & Hp & P1 & P2). destruct T0 as (_ & FT). rewrite Forall_forall in FT. assert (is_part n (fst p)) as Pp by (apply FT, in_map; auto).
  destruct (part_pgood n _ _ _ Pp Hn P1) as ((_ & A2 & A3 & _) & A5 & A6). destruct (part_pgood n _ _ _ Pp Hn P2) as ((_ & B2 & B3 & _) & B5 & B6). split; [auto|]. split; [auto|]. rewrite A5 in *. rewrite B5 in *. split; [congruence|]. split; congruence.
Qed.

Lemma pr_unique F n x y R R' : 1 <= n -> pr F n x y R -> pr F n x y R' -> Forall2 same_part R R'.
Proof.
  intros Hn (tx & ty & T & E1 & E2 & T1 & T2 & P1 & P2 & PT & V & VP) (tx' & ty' & T' & E1' & E2' & _ & _ & _ & _ & PT' & V' & VP'). rewrite E1 in E1'. rewrite E2 in E2'. apply Ret_inj in E1', E2'. subst tx' ty'. rewrite <- (tprod_unique n tx ty T T' PT PT') in *.
  pose proof (vec_of_parts n T R Hn (proj1 PT) V) as G. eapply Forall2_mono; [|exact (vec_pair n T R R' Hn (proj1 PT) V V')]. intros P Q _ (HP & HQ & A1 & A2 & A3). split; [auto|]. split; [auto|]. split; [auto|]. intros i j Hi Hj.
  assert (key P = key Q) as K by (unfold key; congruence). destruct (G P HP) as (_ & _ & D & _). rewrite D in Hi. rewrite VP by auto. rewrite K in Hi. rewrite VP' by auto. rewrite K. reflexivity.
Qed.

(* ---- the statements about every history ---- *)

Lemma vectors_product F n x y tx ty : 1 <= n -> one_columns n x -> one_columns n y -> sv_type x = Ret tx -> sv_type y = Ret ty ->
  exists T R, (forall qs, Forall legal_cgq qs -> exists aa st, cgrun (qs ++ [GTypes tx ty]) cg0 = Ret (aa ++ [AType T], st)) /\ vec_of T R /\
  forall qs, Forall legal_cvq qs -> exists aa st R', cvrun F (qs ++ [CVec x y]) cg0 = Ret (aa ++ [RVec R'], st) /\ Forall2 same_part R R'.
Proof.
  intros Hn X Y Ex Ey. destruct (product_exists F n x y [] Hn X Y (Forall_nil _)) as (_ & _ & R & _ & P). pose proof P as (tx' & ty' & T & E1 & E2 & T1 & T2 & _ & _ & PT & V & _). rewrite Ex in E1. rewrite Ey in E2. apply Ret_inj in E1, E2. subst tx' ty'.
  destruct (cg_answer_types n tx ty Hn T1 T2) as (T' & PT' & A). rewrite (tprod_unique n tx ty T' T PT' PT) in A. exists T, R. split; [auto|]. split; [auto|]. intros qs L. destruct (product_exists F n x y qs Hn X Y L) as (aa & st & R' & E & P'). exists aa, st, R'. split; [auto|]. apply (pr_unique F n x y); auto.
Qed.

Lemma parts_product F n x y qs : 1 <= n -> one_columns n [x] -> one_columns n [y] -> Forall legal_cvq qs ->
  exists aa st R R', cvrun F (qs ++ [CPart x y]) cg0 = Ret (aa ++ [RVec R], st) /\ product_is F [x] [y] R' /\ Forall2 same_part R R'.
Proof.
  intros Hn X Y L. destruct (part_exists F n x y qs Hn X Y L) as (aa & st & R & E & P). destruct (product_exists F n [x] [y] [] Hn X Y (Forall_nil _)) as (aa' & st' & R' & E' & P'). exists aa, st, R, R'. split; [auto|]. split; [exists [], aa', st'; auto|]. apply (pr_unique F n [x] [y]); auto.
Qed.

(* ---- vectors that are alike ---- *)

Lemma alike_type v w : alike v w -> sv_type v = sv_type w.
Proof.
  intros H. unfold sv_type. generalize (@nil (list Z * Z)). induction H as [|P Q v w (A & _ & B) F IH]; intros t; cbn [foldM]; [auto|]. rewrite A, B. destruct (ty_set t (io_lambda (sp_irr Q)) (m_n1 (sp_mat Q))); cbn [bind]; auto.
Qed.

Lemma alike_sym v w : alike v w -> alike w v.
Proof. intros H. induction H as [|P Q v w (A & B & C) F IH]; constructor; auto. Qed.
Lemma alike_refl v : alike v v.
Proof. induction v; constructor; auto. Qed.

Lemma alike_columns n v w : alike v w -> one_columns n v -> one_columns n w.
Proof.
  intros H (N & G). assert (map (fun P => io_lambda (sp_irr P)) w = map (fun P => io_lambda (sp_irr P)) v) as K. { clear - H. induction H as [|P Q v w (A & _) F IH]; cbn [map]; auto. rewrite IH, A. auto. }
  split; [rewrite K; auto|]. intros Q HQ. destruct (Forall2_in_r _ _ _ _ H HQ) as (P & HP & A & B & C). destruct (G P HP) as (l & Pl & D1 & D2 & D3 & D4). exists l. split; [auto|]. split; [congruence|]. split; [congruence|]. split; [congruence|auto].
Qed.

(* the parts of three lists of the same length *)
Lemma triples {A} : forall x y z : list A, length x = length y -> length y = length z -> exists L : list (A * A * A), x = map (fun t => fst (fst t)) L /\ y = map (fun t => snd (fst t)) L /\ z = map snd L /\
  forall t, In t L -> exists k, nth_error x k = Some (fst (fst t)) /\ nth_error y k = Some (snd (fst t)) /\ nth_error z k = Some (snd t).
Proof.
  induction x as [|a x IH]; intros [|b y] [|c z] H1 H2; try discriminate; [exists []; do 3 (split; [auto|]); intros t []|]. destruct (IH y z) as (L & E1 & E2 & E3 & H); [cbn in *; lia..|]. exists ((a, b, c) :: L). cbn [map fst snd]. rewrite <- E1, <- E2, <- E3. do 3 (split; [auto|]). intros t [<-|Ht]; [exists O; auto|]. destruct (H t Ht) as (k & K). exists (S k). auto.
Qed.

Lemma list_prod_map {A B C D} (f : A -> B) (g : C -> D) X Y : list_prod (map f X) (map g Y) = map (fun p => (f (fst p), g (snd p))) (list_prod X Y).
Proof. induction X as [|x X IH]; auto. cbn [map list_prod]. rewrite map_app, IH, !map_map. reflexivity. Qed.

Lemma list_prod_map_l {A B C} (f : A -> B) X (Y : list C) : list_prod (map f X) Y = map (fun p => (f (fst p), snd p)) (list_prod X Y).
Proof. rewrite <- (map_id Y) at 1. exact (list_prod_map f (fun c => c) X Y). Qed.
Lemma list_prod_map_r {A C D} (g : C -> D) (X : list A) Y : list_prod X (map g Y) = map (fun p => (fst p, g (snd p))) (list_prod X Y).
Proof. rewrite <- (map_id X) at 1. exact (list_prod_map (fun a => a) g X Y). Qed.

Lemma alike_length v w : alike v w -> length v = length w.
Proof. induction 1; cbn; auto. Qed.

Lemma combination_triples n s v w z : 1 <= n -> one_columns n z -> combination s v w z -> exists L, v = map (fun t => fst (fst t)) L /\ w = map (fun t => snd (fst t)) L /\ z = map snd L /\
  forall t, In t L -> is_part n (key (snd t)) /\ key (fst (fst t)) = key (snd t) /\ key (snd (fst t)) = key (snd t) /\ forall u, 0 <= u < io_d (mkirr n (key (snd t))) -> col (snd t) u = (s * col (fst (fst t)) u + col (snd (fst t)) u)%R.
Proof.
  intros Hn O (A & B & H). pose proof (alike_length _ _ A) as LA. pose proof (alike_length _ _ B) as LB. destruct (triples v w z) as (L & E1 & E2 & E3 & K); [congruence|congruence|]. exists L. do 3 (split; [auto|]). intros t Ht. destruct (K t Ht) as (k & K1 & K2 & K3).
  assert (forall x, alike x z -> forall P, nth_error x k = Some P -> key P = key (snd t)) as KK. { intros x F P HP. clear - F HP K3. revert k HP K3. induction F as [|a b x z (E & _) F IH]; intros [|k] HP K3; cbn in *; try discriminate; eauto. injection HP as <-. injection K3 as ->. unfold key. rewrite E. auto. }
  apply one_ugood in O as ((G & _) & U); [|auto]. assert (In (snd t) z) as Hz by (eapply nth_error_In; eauto). destruct (G _ Hz) as (G1 & G2 & G3 & G4). split; [auto|]. split; [exact (KK v A _ K1)|]. split; [exact (KK w B _ K2)|]. intros u Hu. unfold col. apply (H k); auto; [rewrite G3; auto|rewrite (U _ Hz); lia].
Qed.

Lemma pr_types F n x y R x' y' R' : 1 <= n -> alike x x' -> alike y y' -> pr F n x y R -> pr F n x' y' R' -> exists T, type_of n T /\ vec_of T R /\ vec_of T R' /\
  (forall c, is_part n c -> mult T c = zsum_over (list_prod x y) (hh n c)) /\ (forall c, In c (map fst T) <-> is_part n c /\ exists pq, In pq (list_prod x y) /\ 0 < hh n c pq) /\ vprod F n (Z.to_nat (n - 1)) x y R /\ vprod F n (Z.to_nat (n - 1)) x' y' R'.
Proof.
  intros Hn A B (tx & ty & T & E1 & E2 & T1 & T2 & P1 & P2 & PT & V & VP) (tx' & ty' & T' & E1' & E2' & _ & _ & _ & _ & PT' & V' & VP'). rewrite <- (alike_type _ _ A), E1 in E1'. rewrite <- (alike_type _ _ B), E2 in E2'. apply Ret_inj in E1', E2'. subst tx' ty'. rewrite <- (tprod_unique n tx ty T T' PT PT') in *.
  destruct (units_tprod n x y tx ty T P1 P2 PT) as (M & K). exists T. split; [apply PT|]. auto 10.
Qed.

(* a relation between the entries of three vectors of one type *)
Lemma combine_results n T s R R' S : 1 <= n -> type_of n T -> vec_of T R -> vec_of T R' -> vec_of T S ->
  (forall P P' Q i j, In P R -> In P' R' -> In Q S -> key P = key Q -> key P' = key Q -> 0 <= i < io_d (mkirr n (key Q)) -> m_at (sp_mat Q) i j = (s * m_at (sp_mat P) i j + m_at (sp_mat P') i j)%R) -> combination s R R' S.
Proof.
  intros Hn T0 V V' VS H. pose proof (vec_pair n T R S Hn T0 V VS) as A. pose proof (vec_pair n T R' S Hn T0 V' VS) as B. split; [eapply Forall2_mono; [|exact A]; intros P Q _ (_ & _ & K); exact K|]. split; [eapply Forall2_mono; [|exact B]; intros P Q _ (_ & _ & K); exact K|].
  intros k P P' Q i j HP HP' HQ Hi Hj. assert (forall X, Forall2 (fun P Q => In P X /\ In Q S /\ sp_irr P = sp_irr Q /\ m_n0 (sp_mat P) = m_n0 (sp_mat Q) /\ m_n1 (sp_mat P) = m_n1 (sp_mat Q)) X S -> forall U, nth_error X k = Some U -> key U = key Q) as KK.
  { intros X F. assert (Forall2 (fun P Q => sp_irr P = sp_irr Q) X S) as F' by (eapply Forall2_mono; [|exact F]; intros a b _ (_ & _ & E & _); exact E). clear F. intros U HU. clear - F' HU HQ. revert k HU HQ. induction F' as [|a b x z E F IH]; intros [|k] HU HQ; cbn in *; try discriminate; eauto. injection HU as <-. injection HQ as <-. unfold key. rewrite E. auto. }
  apply nth_error_In in HQ as IQ. destruct (vec_of_parts n T S Hn T0 VS Q IQ) as (_ & _ & D & _). apply H; eauto using nth_error_In. rewrite <- D. auto.
Qed.

Lemma bilinear_l F n s x x' z y R R' S : 1 <= n -> one_columns n x -> one_columns n x' -> one_columns n y -> combination s x x' z -> product_is F x y R -> product_is F x' y R' -> product_is F z y S -> combination s R R' S.
Proof.
  intros Hn X X' Y C E E' ES. assert (one_columns n z) as Z by (eapply alike_columns; [apply C|auto]). apply (product_pr F n) in E, E', ES; auto. pose proof C as (A & B & _).
  destruct (pr_types F n x y R z y S Hn A (alike_refl y) E ES) as (T & T0 & V & VS & _ & _ & VP & VPS). destruct (pr_types F n x y R x' y R' Hn) as (T' & T0' & V2 & V' & _ & _ & _ & VP'); auto; [|apply alike_refl|].
  { clear - A B. revert x' B. induction A as [|P Q x z (E1 & E2 & E3) F IH]; intros x' B; inversion B as [|P' ? x2 ? (F1 & F2 & F3) F']; subst; constructor; [split; [congruence|split; congruence]|]. apply IH; auto. }
  assert (T' = T) as ->. { destruct E as (tx & ty & T1 & Q1 & Q2 & _ & _ & _ & _ & PT1 & VT1 & _). apply (type_vec n) in V2; auto. apply (type_vec n) in V; auto. rewrite V in V2. apply Ret_inj in V2. auto. }
  destruct (combination_triples n s x x' z Hn Z C) as (L & -> & -> & -> & H). apply (combine_results n T); auto. intros P P' Q i j HP HP' HQ K K' Hi. rewrite (VPS Q HQ), (VP P HP), (VP' P' HP') by (rewrite ?K, ?K'; auto). rewrite K, K'. rewrite !list_prod_map_l, !colsum_map.
  rewrite (colsum_ext (list_prod L y) (fun p => hh n (key Q) (fst (fst (fst p)), snd p)) (fun p => hh n (key Q) (snd (fst p), snd p)) _ (fun p => gg F (Z.to_nat (n - 1)) (key Q) i (fst (fst (fst p)), snd p))); [|intros p Hp|auto].
  2:{ destruct p as (t, q). apply in_prod_iff in Hp as (Ht & _). destruct (H t Ht) as (_ & K1 & K2 & _). unfold hh. cbn [fst snd]. rewrite K1. auto. }
  rewrite (colsum_ext (list_prod L y) (fun p => hh n (key Q) (snd (fst (fst p)), snd p)) (fun p => hh n (key Q) (snd (fst p), snd p)) _ (fun p => gg F (Z.to_nat (n - 1)) (key Q) i (snd (fst (fst p)), snd p))); [|intros p Hp|auto].
  2:{ destruct p as (t, q). apply in_prod_iff in Hp as (Ht & _). destruct (H t Ht) as (_ & K1 & K2 & _). unfold hh. cbn [fst snd]. rewrite K2. auto. }
  rewrite <- colsum_scal, <- colsum_plus. apply colsum_ext; [auto|]. intros (t, q) c Hp Hc. apply in_prod_iff in Hp as (Ht & Hq). destruct (H t Ht) as (Pt & K1 & K2 & Ct). unfold gg. cbn [fst snd]. rewrite K1, K2. rewrite <- BB_lin1. apply BB_ext; auto; replace (Z.of_nat (Z.to_nat (n - 1)) + 1) with n by lia; auto.
  apply one_ugood in Y as ((G & _) & _); [|auto]. apply G; auto.
Qed.

Lemma bilinear_r F n s x y y' z R R' S : 1 <= n -> one_columns n x -> one_columns n y -> one_columns n y' -> combination s y y' z -> product_is F x y R -> product_is F x y' R' -> product_is F x z S -> combination s R R' S.
Proof.
  intros Hn X Y Y' C E E' ES. assert (one_columns n z) as Z by (eapply alike_columns; [apply C|auto]). apply (product_pr F n) in E, E', ES; auto. pose proof C as (A & B & _).
  destruct (pr_types F n x y R x z S Hn (alike_refl x) A E ES) as (T & T0 & V & VS & _ & _ & VP & VPS). destruct (pr_types F n x y R x y' R' Hn) as (T' & T0' & V2 & V' & _ & _ & _ & VP'); auto; [apply alike_refl| |].
  { clear - A B. revert y' B. induction A as [|P Q x z (E1 & E2 & E3) F IH]; intros x' B; inversion B as [|P' ? x2 ? (F1 & F2 & F3) F']; subst; constructor; [split; [congruence|split; congruence]|]. apply IH; auto. }
  assert (T' = T) as ->. { apply (type_vec n) in V2; auto. apply (type_vec n) in V; auto. rewrite V in V2. apply Ret_inj in V2. auto. }
  destruct (combination_triples n s y y' z Hn Z C) as (L & -> & -> & -> & H). apply (combine_results n T); auto. intros P P' Q i j HP HP' HQ K K' Hi. rewrite (VPS Q HQ), (VP P HP), (VP' P' HP') by (rewrite ?K, ?K'; auto). rewrite K, K'. rewrite !list_prod_map_r, !colsum_map.
  rewrite (colsum_ext (list_prod x L) (fun p => hh n (key Q) (fst p, fst (fst (snd p)))) (fun p => hh n (key Q) (fst p, snd (snd p))) _ (fun p => gg F (Z.to_nat (n - 1)) (key Q) i (fst p, fst (fst (snd p))))); [|intros p Hp|auto].
  2:{ destruct p as (q, t). apply in_prod_iff in Hp as (_ & Ht). destruct (H t Ht) as (_ & K1 & K2 & _). unfold hh. cbn [fst snd]. rewrite K1. auto. }
  rewrite (colsum_ext (list_prod x L) (fun p => hh n (key Q) (fst p, snd (fst (snd p)))) (fun p => hh n (key Q) (fst p, snd (snd p))) _ (fun p => gg F (Z.to_nat (n - 1)) (key Q) i (fst p, snd (fst (snd p))))); [|intros p Hp|auto].
  2:{ destruct p as (q, t). apply in_prod_iff in Hp as (_ & Ht). destruct (H t Ht) as (_ & K1 & K2 & _). unfold hh. cbn [fst snd]. rewrite K2. auto. }
  rewrite <- colsum_scal, <- colsum_plus. apply colsum_ext; [auto|]. intros (q, t) c Hp Hc. apply in_prod_iff in Hp as (Hq & Ht). destruct (H t Ht) as (Pt & K1 & K2 & Ct). unfold gg. cbn [fst snd]. rewrite K1, K2. rewrite <- BB_lin2. apply BB_ext; auto; replace (Z.of_nat (Z.to_nat (n - 1)) + 1) with n by lia; auto.
  apply one_ugood in X as ((G & _) & _); [|auto]. apply G; auto.
Qed.
