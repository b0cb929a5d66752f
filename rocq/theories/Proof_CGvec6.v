(* The Clebsch-Gordan product of vectors: inner products and the action of the smaller group. *)
From Coq Require Import ZArith List Bool Lia Reals Lra Sorting.Sorted Permutation.
From Verif Require Import Model_Base Model_Perm Model_Sn Model_Part Model_Comb Model_Tab Model_Irrep Model_Type Model_FFT Model_Vec Model_Char Model_CG Model_CGvec.
From Verif Require Import Spec_Perm Spec_Part Spec_Tab Spec_Rep Spec_Four Spec_Type Spec_FFT Spec_Vec Spec_CG Spec_CGvec.
From Verif Require Import Proof_Base Proof_Perm Proof_Sn Proof_Part Proof_PartProps Proof_Tab Proof_TabProps Proof_Cycles Proof_Cox Proof_Yor Proof_Sum Proof_Irrep Proof_Rep Proof_Mat Proof_IrrepProps Proof_JM Proof_Conn Proof_Schur Proof_Restr Proof_UpDown Proof_Complete Proof_CharBank Proof_Type Proof_Rept Proof_FFTmath Proof_FFTlay Proof_FFTlay2 Proof_FFTblk Proof_FFTstep Proof_Vec Proof_Vec2 Proof_Vec3 Proof_Vec4 Proof_Vec5 Proof_Vec6 Proof_Vec7 Proof_Vec8 Proof_Kron Proof_CG Proof_CGdown Proof_CGvec1 Proof_CGvec2 Proof_CGvec3 Proof_CGvec4 Proof_CGvec5.
Import ListNotations.
Open Scope Z_scope.


(* ---- inner products ---- *)

Lemma lsum_rsum_swap' {A} (Q : list A) d (f : A -> Z -> R) : rsum d (fun i => lsum Q (fun m => f m i)) = lsum Q (fun m => rsum d (f m)).
Proof. rewrite rsum_lsum, lsum_swap. apply lsum_ext. intros. rewrite rsum_lsum. auto. Qed.

Lemma orth_mult n l1 l2 sub mu : 2 <= n -> is_part n l1 -> is_part n l2 -> is_part (n - 1) mu -> rdown n (cgt l1 l2) sub -> mult sub mu = WW n l1 l2 mu.
Proof.
  intros Hn P1 P2 Pm (_ & _ & Ms). destruct (cgt_ok n l1 l2 ltac:(lia) P1 P2) as (PT & _). pose proof PT as (T & _). rewrite Ms by auto. rewrite zsum_filter'. rewrite <- lk_total by auto. rewrite <- (zsum_over_sub pdec (map fst (cgt l1 l2)) (pl n)); [|apply (type_nodup n); auto|apply NoDup_plist|intros x Hx; apply (cgt_keys n) in Hx; auto; [|lia]; apply in_pl; [lia|apply Hx]|].
  - apply zsum_over_ext. intros x Hx. unfold lk. destruct (isin mu (belows x)); [|auto]. apply in_pl in Hx; [|lia]. apply (prod_type_kz n l1 l2); auto. lia.
  - intros x Hx N. apply in_pl in Hx; [|lia]. unfold lk. destruct (isin mu (belows x)); auto. pose proof (kz_nonneg n l1 l2 x ltac:(lia) P1 P2 Hx). rewrite (cgt_keys n) in N by (auto; lia). destruct (Z.eq_dec (kz n l1 l2 x) 0); [auto|]. destruct N. split; [auto|lia].
Qed.

Lemma orthogonal_orth F : orthogonal_factors F -> orth F.
Proof.
  intros O n l1 l2 mu c e Hn P1 P2 Pm Hc He. destruct (cgt_ok n l1 l2 ltac:(lia) P1 P2) as (PT & EC). destruct (EC cg0 ginv0) as (b' & E & _). pose proof PT as (T & _). destruct (down_rdown n (cgt l1 l2) T ltac:(lia)) as (sub & Es & Ds). pose proof (orth_mult n l1 l2 sub mu Hn P1 P2 Pm Ds) as EM. destruct Ds as (Ts & Ks & _).
  assert (In mu (map fst sub)) as Hm. { destruct (in_dec pdec mu (map fst sub)); [auto|]. rewrite mult_notin in EM by auto. lia. }
  apply in_map_iff in Hm as ((m, k) & Em & Hm). cbn [fst] in Em. subst m. assert (k = WW n l1 l2 mu) as Ek. { rewrite <- EM. symmetry. apply mult_in; auto. apply (type_nodup (n - 1)); auto. }
  rewrite <- Ek in *. apply (O n l1 l2 (cgt l1 l2) b' sub mu k c e Hn P1 P2); auto. cbn [cgrun cgstep]. rewrite E. reflexivity.
Qed.

Lemma pairs {A} : forall x y : list A, length x = length y -> x = map fst (combine x y) /\ y = map snd (combine x y).
Proof. induction x as [|a x IH]; intros [|b y] H; try discriminate; [auto|]. cbn [combine map fst snd]. destruct (IH y) as (E1 & E2); [cbn in *; lia|]. rewrite <- E1, <- E2. auto. Qed.

Lemma alike_in v w p : alike v w -> In p (combine v w) -> In (fst p) v /\ In (snd p) w /\ key (fst p) = key (snd p).
Proof.
  intros A. induction A as [|P Q v w (E & _) A IH]; intros H; [destruct H|]. destruct H as [<-|H]; [cbn; unfold key; rewrite E; auto|]. destruct (IH H) as (H1 & H2 & H3). cbn. auto.
Qed.

Lemma dot_lsum n T (e e' : list Z -> Z -> Z -> R) R R' : 1 <= n -> type_of n T -> vec_of T R -> vec_of T R' ->
  (forall P i j, In P R -> 0 <= i < io_d (mkirr n (key P)) -> m_at (sp_mat P) i j = e (key P) i j) -> (forall P i j, In P R' -> 0 <= i < io_d (mkirr n (key P)) -> m_at (sp_mat P) i j = e' (key P) i j) ->
  vec_dot R R' = lsum T (fun p => rsum (io_d (mkirr n (fst p))) (fun i => rsum (snd p) (fun j => (e (fst p) i j * e' (fst p) i j)%R))).
Proof.
  intros Hn (_ & FT). unfold vec_dot. revert R R'. induction T as [|p T IH]; intros R R' V V' H H'; inversion V as [|? P ? R1 HP V1]; inversion V' as [|? P' ? R1' HP' V1']; subst; [reflexivity|].
  cbn [map] in FT. inversion FT as [|? ? F1 F2]; subst. cbn [combine]. change (@sum_over (spart * spart)) with (@lsum (spart * spart)). rewrite !lsum_cons. f_equal.
  - cbn [fst snd]. destruct (part_pgood n _ _ _ F1 Hn HP) as ((_ & _ & D & _) & K & M). destruct (part_pgood n _ _ _ F1 Hn HP') as (_ & K' & _). unfold part_dot. rewrite D, K, M. apply rsum_ext. intros i Hi. apply rsum_ext. intros j Hj.
    rewrite H, H' by (try (left; reflexivity); rewrite ?K, ?K'; auto). rewrite K, K'. reflexivity.
  - apply IH; auto; intros; [apply H|apply H']; auto; right; auto.
Qed.

Lemma inner_productN F n x y x' y' R R' : 1 <= n -> orthN n F -> one_columns n x -> one_columns n y -> alike x x' -> alike y y' -> product_is F x y R -> product_is F x' y' R' ->
  vec_dot R R' = (vec_dot x x' * vec_dot y y')%R.
Proof.
  intros Hn O X Y A B E E'. pose proof (alike_columns n _ _ A X) as X'. pose proof (alike_columns n _ _ B Y) as Y'. apply (product_pr F n) in E, E'; auto.
  destruct (pr_types F n x y R x' y' R' Hn A B E E') as (T & T0 & V & V' & M & K & VP & VP').
  set (k := Z.to_nat (n - 1)) in *. assert (Z.of_nat k + 1 = n) as Ek by lia.
  rewrite (dot_lsum n T (fun lam i => colsum (list_prod x y) (hh n lam) (gg F k lam i)) (fun lam i => colsum (list_prod x' y') (hh n lam) (gg F k lam i)) R R' Hn T0 V V'); [|intros P i j HP; apply VP; auto|intros P i j HP; apply VP'; auto].
  destruct (pairs x x') as (Ex & Ex'); [apply alike_length; auto|]. destruct (pairs y y') as (Ey & Ey'); [apply alike_length; auto|].
  apply one_ugood in X as ((GX & _) & UX), Y as ((GY & _) & UY); auto.
  set (Q := list_prod (combine x x') (combine y y')). set (q1 := fun m : (spart * spart) * (spart * spart) => (fst (fst m), fst (snd m))). set (q2 := fun m : (spart * spart) * (spart * spart) => (snd (fst m), snd (snd m))).
  assert (list_prod x y = map q1 Q) as Q1 by (rewrite Ex, Ey at 1; apply (list_prod_map fst fst)). assert (list_prod x' y' = map q2 Q) as Q2 by (rewrite Ex', Ey' at 1; apply (list_prod_map snd snd)).
  assert (forall m, In m Q -> In (fst (fst m)) x /\ In (fst (snd m)) y /\ key (snd (fst m)) = key (fst (fst m)) /\ key (snd (snd m)) = key (fst (snd m))) as QI.
  { intros (a, b) Hm. apply in_prod_iff in Hm as (Ha & Hb). destruct (alike_in _ _ _ A Ha) as (A1 & A2 & A3), (alike_in _ _ _ B Hb) as (B1 & B2 & B3). cbn [fst snd]. auto. }
  set (h := fun lam m => hh n lam (q1 m)). assert (forall lam m, is_part n lam -> In m Q -> 0 <= h lam m) as Hh. { intros lam m Pl Hm. destruct (QI m Hm) as (I1 & I2 & _). unfold h. apply hh_nonneg; auto; split; cbn; auto; [apply GX|apply GY]; auto. }
  transitivity (lsum T (fun p => lsum Q (fun m => rsum (io_d (mkirr n (fst p))) (fun i => rsum (h (fst p) m) (fun j => (gg F k (fst p) i (q1 m) j * gg F k (fst p) i (q2 m) j)%R))))).
  { apply lsum_ext. intros (lam, m0) Hp. cbn [fst snd]. assert (is_part n lam) as Pl. { destruct T0 as (_ & FT). rewrite Forall_forall in FT. apply FT. apply (in_map fst) in Hp. exact Hp. }
    assert (m0 = zsum_over Q (h lam)) as ->. { rewrite <- (mult_in T lam m0) by (auto; apply (type_nodup n); auto). rewrite M, Q1, zsum_over_map by auto. reflexivity. }
    rewrite <- (lsum_rsum_swap' Q). apply rsum_ext. intros i Hi. rewrite Q1, Q2. 
    rewrite (rsum_blocks Q (h lam) _ (fun m j => (gg F k lam i (q1 m) j * gg F k lam i (q2 m) j)%R)); [reflexivity|auto|].
    intros pre m post j EQ Hj. rewrite !colsum_map. rewrite (colsum_ext Q (fun m => hh n lam (q2 m)) (h lam) (fun m => gg F k lam i (q2 m)) (fun m => gg F k lam i (q2 m))); [|intros z Hz; destruct (QI z Hz) as (_ & _ & K1 & K2); unfold h, hh, q1, q2; cbn [fst snd]; rewrite K1, K2; auto|auto].
    change (fun m => hh n lam (q1 m)) with (h lam). rewrite EQ. rewrite !colsum_at; auto; intros z Hz; apply Hh; auto; rewrite EQ; exact Hz. }
  rewrite lsum_swap. transitivity (lsum Q (fun m => (part_dot (fst (fst m)) (snd (fst m)) * part_dot (fst (snd m)) (snd (snd m)))%R)).
  - apply lsum_ext. intros m Hm. destruct (QI m Hm) as (I1 & I2 & K1 & K2). destruct (GX _ I1) as (X1 & X2 & X3 & _), (GY _ I2) as (Y1 & Y2 & Y3 & _).
    transitivity (bdot F k (key (fst (fst m))) (key (fst (snd m))) (col (fst (fst m))) (col (fst (snd m))) (col (snd (fst m))) (col (snd (snd m)))).
    + unfold bdot. cbv zeta. rewrite Ek. rewrite <- (lsum_map fst T (fun lam => rsum (io_d (mkirr n lam)) (fun i => rsum (h lam m) (fun j => (gg F k lam i (q1 m) j * gg F k lam i (q2 m) j)%R)))). symmetry.
      rewrite (lsum_list_sub pdec (map fst T)); [| |apply NoDup_plist| |].
      * apply lsum_ext. intros lam Hl. unfold gg, q1, q2. cbn [fst snd]. rewrite K1, K2. reflexivity.
      * apply (type_nodup n); auto.
      * intros lam Hl. apply K in Hl as (Pl & _). apply in_pl; auto.
      * intros lam Hl N. apply in_pl in Hl; auto. assert (kz n (key (fst (fst m))) (key (fst (snd m))) lam = 0) as ->.
        { pose proof (Hh lam m Hl Hm) as H0. unfold h, hh, q1 in H0. cbn [fst snd] in H0. destruct (Z.eq_dec (kz n (key (fst (fst m))) (key (fst (snd m))) lam) 0) as [|Ne]; [auto|]. destruct N. apply K. split; [auto|]. exists (q1 m). split; [rewrite Q1; apply in_map; auto|]. unfold hh, q1. cbn [fst snd]. lia. }
        rewrite rsum_lsum. apply lsum_0. intros i Hi. reflexivity.
    + rewrite BB_isoN; rewrite ?Ek; auto. unfold part_dot, dot. rewrite X3, Y3, (UX _ I1), (UY _ I2). f_equal; apply rsum_ext; intros u Hu; rewrite rsum_lsum; change (zrange 0 1) with [0]; rewrite lsum_cons, lsum_nil; unfold col; ring.
  - unfold Q. rewrite lsum_prod. cbn [fst snd]. unfold vec_dot. change (@sum_over (spart * spart)) with (@lsum (spart * spart)). rewrite <- lsum_scal_r. apply lsum_ext. intros a Ha. rewrite lsum_scal. reflexivity.
Qed.

Lemma inner_product F n x y x' y' R R' : 1 <= n -> orthogonal_factors F -> one_columns n x -> one_columns n y -> alike x x' -> alike y y' -> product_is F x y R -> product_is F x' y' R' ->
  vec_dot R R' = (vec_dot x x' * vec_dot y y')%R.
Proof. intros Hn O. apply inner_productN; auto. apply orth_N. apply orthogonal_orth. auto. Qed.

(* ---- the action of permutations ---- *)

Definition equip (F : ftable) (k : nat) (p : list Z) : Prop := let n := Z.of_nat k + 1 in forall l1 l2 lam x y i j, is_part n l1 -> is_part n l2 -> is_part n lam -> 0 <= i < io_d (mkirr n lam) -> 0 <= j < kz n l1 l2 lam ->
  BB F k l1 l2 (mv n l1 p x) (mv n l2 p y) lam i j = rsum (io_d (mkirr n lam)) (fun i' => (rr n lam p i i' * BB F k l1 l2 x y lam i' j)%R).

Lemma moved_alike n p v v' : Forall2 (vmoved n p) v v' -> alike v v'.
Proof. intros F. eapply Forall2_mono; [|exact F]. intros P Q _ (A & B & C & _). auto. Qed.

Lemma commute_of F n (ps : list Z -> Prop) : 1 <= n -> (forall p, ps p -> is_perm n p /\ equip F (Z.to_nat (n - 1)) p) -> products_commute F n ps.
Proof.
  intros Hn H x y p x' y' R R' X Y Hp Ax Ay E E'. destruct (H p Hp) as (Pp & EQ). set (k := Z.to_nat (n - 1)) in *. assert (Z.of_nat k + 1 = n) as Ek by lia. unfold equip in EQ. cbv zeta in EQ. rewrite Ek in EQ.
  pose proof X as UX. pose proof Y as UY. apply one_ugood in UX as ((GX & _) & UX), UY as ((GY & _) & UY); auto.
  destruct (apply_pure n p x Hn Pp GX) as (x2 & Ex & Fx). rewrite Ax in Ex. apply Ret_inj in Ex. subst x2. destruct (apply_pure n p y Hn Pp GY) as (y2 & Ey & Fy). rewrite Ay in Ey. apply Ret_inj in Ey. subst y2.
  pose proof (moved_alike _ _ _ _ Fx) as A. pose proof (moved_alike _ _ _ _ Fy) as B. apply (product_pr F n) in E, E'; auto; [|eapply alike_columns; eauto|eapply alike_columns; eauto].
  destruct (pr_types F n x y R x' y' R' Hn A B E E') as (T & T0 & V & V' & M & K & VP & VP'). fold k in VP, VP'.
  destruct (apply_pure n p R Hn Pp (vec_of_parts n T R Hn T0 V)) as (R2 & E2 & F2). exists R2. split; [auto|].
  pose proof (vec_of_parts n T R Hn T0 V) as GR. eapply Forall2_mono; [|exact (Forall2_join _ _ _ _ _ F2 (vec_pair n T R R' Hn T0 V V'))]. intros P2 P' _ (HP2 & HP' & P & HP & (A1 & A2 & A3 & A4) & _ & _ & B1 & B2 & B3).
  split; [congruence|]. split; [congruence|]. split; [congruence|]. intros i j Hi Hj. rewrite A2 in Hi. rewrite A3 in Hj. rewrite A4 by auto. destruct (GR P HP) as (G1 & G2 & G3 & G4). rewrite G3 in Hi. set (lam := key P) in *. assert (key P' = lam) as KP by (unfold lam, key; congruence).
  rewrite VP' by (auto; rewrite KP; auto). rewrite KP. unfold mprod. rewrite (rsum_ext _ _ (fun c => colsum (list_prod x y) (hh n lam) (fun m j => (rr n lam p i c * gg F k lam c m j)%R) j)).
  2:{ intros c Hc. rewrite (VP P HP) by auto. rewrite colsum_scal. reflexivity. }
  rewrite <- colsum_rsum. eapply colsum_Forall2; [exact (Forall2_prod _ _ _ _ _ _ Fx Fy)| |].
  - intros (a, b) (a', b') _ (Q1 & Q2). cbn [fst snd] in *. unfold hh. cbn [fst snd]. unfold key. rewrite (proj1 Q1), (proj1 Q2). auto.
  - intros (a, b) (a', b') c Hm (Q1 & Q2) Hc. apply in_prod_iff in Hm as (Ha & Hb). cbn [fst snd] in *. destruct (GX a Ha) as (X1 & X2 & X3 & X4), (GY b Hb) as (Y1 & Y2 & Y3 & Y4). unfold gg, hh in *. cbn [fst snd] in *.
    destruct Q1 as (C1 & C2 & C3 & C4), Q2 as (D1 & D2 & D3 & D4). assert (key a' = key a) as -> by (unfold key; congruence). assert (key b' = key b) as -> by (unfold key; congruence). rewrite <- EQ by auto. apply BB_ext; rewrite ?Ek; auto; intros u Hu.
    + unfold col at 2. rewrite C4 by (rewrite ?X3, ?(UX a Ha); auto; lia). reflexivity.
    + unfold col at 2. rewrite D4 by (rewrite ?Y3, ?(UY b Hb); auto; lia). reflexivity.
Qed.

Definition unit_part (n : Z) (l : list Z) (x : Z -> R) : spart := mkSpart (mkirr n l) (mkMat (io_d (mkirr n l)) 1 (fun u _ => x u)).
Lemma unit_columns n l x : 1 <= n -> is_part n l -> one_columns n [unit_part n l x].
Proof. intros Hn Pl. split; [cbn; apply NoDup_cons; [intros []|apply NoDup_nil]|]. intros P [<-|[]]. exists l. split; [auto|]. apply (good_part n); auto. lia. Qed.

Lemma equip_of F n (ps : list Z -> Prop) p : 1 <= n -> products_commute F n ps -> ps p -> is_perm n p -> equip F (Z.to_nat (n - 1)) p.
Proof.
  intros Hn C Hp Pp. set (k := Z.to_nat (n - 1)). assert (Z.of_nat k + 1 = n) as Ek by lia. unfold equip. cbv zeta. rewrite Ek. intros l1 l2 lam x y i j P1 P2 Pl Hi Hj.
  pose proof (unit_columns n l1 x Hn P1) as X. pose proof (unit_columns n l2 y Hn P2) as Y. set (U := unit_part n l1 x) in *. set (W := unit_part n l2 y) in *.
  pose proof X as UX. pose proof Y as UY. apply one_ugood in UX as ((GX & _) & UX), UY as ((GY & _) & UY); auto.
  destruct (apply_pure n p [U] Hn Pp GX) as (x' & Ex & Fx). destruct (apply_pure n p [W] Hn Pp GY) as (y' & Ey & Fy). assert (forall P v, Forall2 (vmoved n p) [P] v -> exists Q, v = [Q] /\ vmoved n p P Q) as One. { clear. intros P v H. inversion H as [|? Q ? v0 M H0]; subst. inversion H0; subst. eauto. }
  destruct (One _ _ Fx) as (U' & -> & MU), (One _ _ Fy) as (W' & -> & MW).
  pose proof (moved_alike _ _ _ _ Fx) as A. pose proof (moved_alike _ _ _ _ Fy) as B. pose proof (alike_columns n _ _ A X) as X'. pose proof (alike_columns n _ _ B Y) as Y'.
  destruct (product_exists F n [U] [W] [] Hn X Y (Forall_nil _)) as (aa & st & R & E & PR). destruct (product_exists F n [U'] [W'] [] Hn X' Y' (Forall_nil _)) as (aa' & st' & R' & E' & PR').
  destruct (C [U] [W] p [U'] [W'] R R' X Y Hp Ex Ey) as (R2 & E2 & S2); [exists [], aa, st; auto|exists [], aa', st'; auto|].
  destruct (pr_types F n [U] [W] R [U'] [W'] R' Hn A B PR PR') as (T & T0 & V & V' & M & K & VP & VP'). fold k in VP, VP'. pose proof (vec_of_parts n T R Hn T0 V) as GR.
  destruct (apply_pure n p R Hn Pp GR) as (R3 & E3 & F3). rewrite E2 in E3. apply Ret_inj in E3. subst R3.
  assert (In lam (map fst T)) as HT. { apply K. split; [auto|]. exists (U, W). split; [left; auto|]. unfold hh. cbn. lia. }
  destruct (vec_good n T R Hn V (proj2 T0) (type_nodup n T T0)) as (GV & KV & FV). rewrite <- KV in HT. apply in_map_iff in HT as (P & KP & HP). destruct (Forall2_in_l _ _ _ _ F3 HP) as (P2' & HP2 & (A1 & A2 & A3 & A4)). destruct (Forall2_in_l _ _ _ _ S2 HP2) as (P' & HP' & (B1 & B2 & B3 & B4)).
  destruct (GR P HP) as (G1 & G2 & G3 & G4). rewrite KP in *. assert (m_n1 (sp_mat P) = kz n l1 l2 lam) as M1. { assert (In (lam, m_n1 (sp_mat P)) T) as HT. { destruct (Forall2_in_r _ _ _ _ V HP) as (t & Ht & D). destruct (part_pgood n _ _ _ (proj1 (Forall_forall _ _) (proj2 T0) _ (in_map fst _ _ Ht)) Hn D) as (_ & D1 & D2). rewrite KP in D1. rewrite D2, D1. destruct t; auto. }
    rewrite <- (mult_in T lam (m_n1 (sp_mat P))) by (auto; apply (type_nodup n); auto). rewrite M by auto. cbn [list_prod map app]. rewrite zsum_over_cons, zsum_over_nil. unfold hh. cbn. lia. }
  assert (key P' = lam) as KP'. { rewrite <- KP. unfold key. congruence. } assert (forall a b i j, 0 <= j < kz n l1 l2 lam -> key a = l1 -> key b = l2 -> colsum (list_prod [a] [b]) (hh n lam) (gg F k lam i) j = BB F k l1 l2 (col a) (col b) lam i j) as CC.
  { intros a b i0 j0 Hj0 Ka Kb. cbn [list_prod map app colsum]. unfold hh, gg. cbn [fst snd]. rewrite Ka, Kb. replace (inrange j0 (kz n l1 l2 lam)) with true; [ring|]. unfold inrange. symmetry. apply andb_true_intro. split; [apply Z.leb_le|apply Z.ltb_lt]; lia. }
  pose proof (VP' P' HP' i j) as Z3. rewrite KP' in Z3. specialize (Z3 Hi). rewrite <- B4 in Z3 by (rewrite ?A2, ?A3, ?G3, ?M1; auto). rewrite A4 in Z3 by (rewrite ?G3, ?M1; auto). unfold mprod in Z3.
  destruct MU as (C1 & C2 & C3 & C4), MW as (D1 & D2 & D3 & D4). rewrite (CC U' W') in Z3; auto; [|unfold key; rewrite C1; reflexivity|unfold key; rewrite D1; reflexivity].
  rewrite (rsum_ext _ _ (fun i' => (rr n lam p i i' * BB F k l1 l2 x y lam i' j)%R)) in Z3.
  2:{ intros i' Hi'. f_equal. rewrite (VP P HP) by (rewrite KP; auto). rewrite KP. rewrite (CC U W) by auto. reflexivity. }
  rewrite Z3. apply BB_ext; rewrite ?Ek; auto; intros u Hu; symmetry.
  - unfold col. rewrite C4 by (cbn; auto; lia). reflexivity.
  - unfold col. rewrite D4 by (cbn; auto; lia). reflexivity.
Qed.

Lemma commutes_smaller F n : 2 <= n -> products_commute F (n - 1) (is_perm (n - 1)) -> products_commute F n (fun p => exists q, is_perm (n - 1) q /\ p = q ++ [n]).
Proof.
  intros Hn C. apply commute_of; [lia|]. intros p (q & Hq & ->). split; [pose proof (is_perm_snoc (n - 1) q) as W; replace (n - 1 + 1) with n in W by lia; apply W; auto; lia|]. assert (Z.to_nat (n - 1) = S (Z.to_nat (n - 2))) as -> by lia. set (k := Z.to_nat (n - 2)). assert (equi F k) as EQ.
  { unfold equi. cbv zeta. intros l1 l2 lam q' x y i j P1 P2 Pl Hq' Hi Hj. assert (Z.of_nat k + 1 = n - 1) as Ek by lia. pose proof (equip_of F (n - 1) (is_perm (n - 1)) q' ltac:(lia) C) as H. rewrite Ek in *. specialize (H Hq' Hq'). replace (Z.to_nat (n - 1 - 1)) with k in H by lia. unfold equip in H. cbv zeta in H. rewrite Ek in H. apply H; auto. }
  unfold equip. cbv zeta. intros l1 l2 lam x y i j P1 P2 Pl Hi Hj. replace (Z.of_nat (S k) + 1) with n in * by lia. pose proof (equi_down F k EQ) as H. cbv zeta in H. replace (Z.of_nat k + 2) with n in H by lia. apply H; auto. lia.
Qed.

(* ---- S_2: every table of factors gives products that commute with the group ---- *)

Lemma BB_scal F k l1 l2 s t x y lam i j : is_part (Z.of_nat k + 1) l1 -> is_part (Z.of_nat k + 1) l2 -> BB F k l1 l2 (fun u => s * x u)%R (fun u => t * y u)%R lam i j = (s * t * BB F k l1 l2 x y lam i j)%R.
Proof.
  intros P1 P2. assert (forall y, BB F k l1 l2 (fun _ => 0%R) y lam i j = 0%R) as Z1. { intros y0. pose proof (BB_lin1 F k l1 l2 1 (fun _ => 0%R) (fun _ => 0%R) y0 lam i j) as H. rewrite (BB_ext F k l1 l2 _ y0 (fun _ => 0%R) y0) in H; auto; [lra|]. intros; ring. }
  assert (forall x, BB F k l1 l2 x (fun _ => 0%R) lam i j = 0%R) as Z2. { intros x0. pose proof (BB_lin2 F k l1 l2 1 x0 (fun _ => 0%R) (fun _ => 0%R) lam i j) as H. rewrite (BB_ext F k l1 l2 x0 _ x0 (fun _ => 0%R)) in H; auto; [lra|]. intros; ring. }
  rewrite (BB_ext F k l1 l2 _ _ (fun u => s * x u + 0)%R (fun u => t * y u + 0)%R) by (auto; intros; ring). rewrite BB_lin1, Z1, BB_lin2, Z2. ring.
Qed.

Lemma parts_2 l : is_part 2 l -> l = [2] \/ l = [1; 1].
Proof. intros H. apply in_pl in H; [|lia]. vm_compute in H. destruct H as [H|[H|[]]]; auto. Qed.

Lemma d_2 l : is_part 2 l -> io_d (mkirr 2 l) = 1.
Proof. intros H. destruct (parts_2 l H) as [-> | ->]; reflexivity. Qed.

Lemma kz_2 a b c p : is_part 2 a -> is_part 2 b -> is_part 2 c -> is_perm 2 p -> 0 < kz 2 a b c -> (chi 2 a p * chi 2 b p = chi 2 c p)%R.
Proof.
  intros Pa Pb Pc Pp H. assert (is_part 2 [2]) as P2 by (apply decb_part; reflexivity). assert (is_part 2 [1; 1]) as P11 by (apply decb_part; reflexivity).
  pose proof (kron_decompose 2 ltac:(lia) a b (pid 2) Pa Pb (is_perm_pid 2 ltac:(lia))) as H1. pose proof (kron_decompose 2 ltac:(lia) a b p Pa Pb Pp) as Hp.
  change (plist (Z.to_nat (2 - 1))) with [[2]; [1; 1]] in *. rewrite !lsum_cons, lsum_nil in *. rewrite !(chi_id 2 ltac:(lia)) in H1 by auto. unfold dimR in H1. rewrite !d_2 in H1 by auto.
  destruct (kz_ok 2 a b [2] ltac:(lia) Pa Pb P2) as (E1 & N1), (kz_ok 2 a b [1; 1] ltac:(lia) Pa Pb P11) as (E2 & N2). rewrite <- E1, <- E2 in *. assert (kz 2 a b [2] + kz 2 a b [1; 1] = 1) as S. { apply eq_IZR. rewrite plus_IZR. lra. }
  destruct (parts_2 c Pc) as [-> | ->].
  - assert (kz 2 a b [2] = 1) as K1 by lia. assert (kz 2 a b [1; 1] = 0) as K2 by lia. rewrite K1, K2 in Hp. lra.
  - assert (kz 2 a b [2] = 0) as K1 by lia. assert (kz 2 a b [1; 1] = 1) as K2 by lia. rewrite K1, K2 in Hp. lra.
Qed.

Lemma rsum_1 f : rsum 1 f = f 0.
Proof. rewrite rsum_lsum. change (zrange 0 1) with [0]. rewrite lsum_cons, lsum_nil. ring. Qed.

Lemma chi_2 l p : is_part 2 l -> chi 2 l p = rr 2 l p 0 0.
Proof. intros H. unfold chi, trace. rewrite (d_2 l H), rsum_1. reflexivity. Qed.

Lemma equip_2 F p : is_perm 2 p -> equip F 1 p.
Proof.
  intros Hp. unfold equip. cbv zeta. change (Z.of_nat 1 + 1) with 2. intros l1 l2 lam x y i j P1 P2 Pl Hi Hj. rewrite (d_2 lam Pl) in *. assert (i = 0) as -> by lia. rewrite rsum_1.
  rewrite (BB_ext F 1 l1 l2 _ _ (fun u => rr 2 l1 p 0 0 * x u)%R (fun u => rr 2 l2 p 0 0 * y u)%R); auto.
  - rewrite BB_scal by auto. rewrite <- !chi_2 by auto. rewrite (kz_2 l1 l2 lam p) by (auto; lia). reflexivity.
  - change (Z.of_nat 1 + 1) with 2. rewrite (d_2 l1 P1). intros u Hu. assert (u = 0) as -> by lia. unfold mv. rewrite (d_2 l1 P1), rsum_1. reflexivity.
  - change (Z.of_nat 1 + 1) with 2. rewrite (d_2 l2 P2). intros u Hu. assert (u = 0) as -> by lia. unfold mv. rewrite (d_2 l2 P2), rsum_1. reflexivity.
Qed.

Lemma commutes_2 F : products_commute F 2 (is_perm 2).
Proof. apply commute_of; [lia|]. intros p Hp. split; [auto|]. apply equip_2. auto. Qed.

Lemma commutes_3 F : products_commute F 3 (fun p => exists q, is_perm 2 q /\ p = q ++ [3]).
Proof. apply (commutes_smaller F 3); [lia|apply commutes_2]. Qed.

(* the factors that are identity matrices are orthogonal *)
Lemma identity_orthogonal : orthogonal_factors (fun _ _ _ c j => delta c j).
Proof.
  intros n a b t st sub mu k c e _ _ _ _ _ _ Hc He. rewrite rsum_delta_l; auto. unfold delta. destruct (Z.eq_dec c e), (Z.eq_dec e c); congruence.
Qed.
