(* Restriction and induction of types, and the objects and the bank of representations. *)
From Coq Require Import ZArith List Bool Lia ZifyBool Sorting.Sorted Permutation Reals.
From Verif Require Import Model_Base Model_Part Model_Comb Model_Tab Model_Irrep Model_Type.
From Verif Require Import Spec_Part Spec_Tab Spec_Type.
From Verif Require Import Proof_Base Proof_Part Proof_PartProps Proof_Tab Proof_TabProps Proof_Irrep Proof_Rep Proof_Mat Proof_IrrepProps Proof_JM Proof_Conn Proof_Schur Proof_Restr Proof_Sum Proof_UpDown Proof_Map Proof_Type.
Import ListNotations.
Open Scope Z_scope.

(* ---- sums over the entries of a type ---- *)
Lemma entry_mult n t k m : type_of n t -> In (k, m) t -> mult t k = m.
Proof.
  intros T H. pose proof (type_nodup n t T) as N. clear T. induction t as [|(k', m') t IH]; [contradiction|]. cbn [map fst] in N. inversion N; subst. cbn [mult]. destruct (list_eq_dec Z.eq_dec k' k) as [->|E].
  - destruct H as [H|H]; [congruence|]. destruct H2. apply in_map_iff. exists (k, m). auto.
  - destruct H as [H|H]; [congruence|]. auto.
Qed.

Lemma mult_notin t l : ~ In l (map fst t) -> mult t l = 0.
Proof. intros H. rewrite mult_aget, (aget_none pdec); auto. intros x Hx ->. auto. Qed.

Lemma entries_keys n t (g : list Z -> Z -> Z) : type_of n t -> zsum_over t (fun p => g (fst p) (snd p)) = zsum_over (map fst t) (fun l => g l (mult t l)).
Proof. intros T. rewrite zsum_over_map. apply zsum_over_ext. intros (k, m) H. cbn. rewrite (entry_mult n t k m) by auto. auto. Qed.

(* c decides which partitions count *)
Lemma type_sum n t L (c : list Z -> bool) : type_of n t -> NoDup L -> (forall l, In l L <-> is_part n l /\ c l = true) -> zsum_over t (fun p => if c (fst p) then snd p else 0) = zsum_over L (mult t).
Proof.
  intros T N HL. rewrite (entries_keys n t (fun l m => if c l then m else 0)) by auto.
  rewrite (zsum_over_sub pdec (filter c (map fst t)) L); auto using NoDup_filter.
  - induction (map fst t) as [|x xs IH]; auto. cbn [filter]. rewrite zsum_over_cons, IH. destruct (c x); [rewrite zsum_over_cons|]; lia.
  - apply NoDup_filter. eapply type_nodup; eauto.
  - intros x Hx. apply filter_In in Hx as (Hx & Hc). apply HL. split; auto. destruct T as (_ & F). rewrite Forall_forall in F. auto.
  - intros x Hx Hn. apply mult_notin. intros H. apply Hn. apply filter_In. apply HL in Hx. tauto.
Qed.

(* ---- the partitions below and above ---- *)
Definition belows (l : list Z) : list (list Z) := map (prem l) (corners l).
Definition aboves (l : list Z) : list (list Z) := map (padd l) (adds l).
Definition isin (x : list Z) (xs : list (list Z)) : bool := if in_dec pdec x xs then true else false.
Lemma isin_true x xs : isin x xs = true <-> In x xs.
Proof. unfold isin. destruct (in_dec pdec x xs); split; auto; discriminate. Qed.

Lemma belows_spec n l : is_part n l -> 1 <= n -> NoDup (belows l) /\ forall mu, In mu (belows l) <-> is_part (n - 1) mu /\ contained mu l.
Proof. intros P Hn. destruct (parents_exact n l P Hn) as (ps & E & _ & N & I). unfold ip_parents in E. rewrite (ip_foreach_sub_ok n) in E by auto. apply Ret_inj in E. subst ps. auto. Qed.

Lemma padd_inj_row n l r r' : is_part n l -> In r (adds l) -> In r' (adds l) -> padd l r = padd l r' -> r = r'.
Proof.
  intros P H H' E. pose proof (proj1 (in_adds l r) H) as (B & _). pose proof (add_row n l r r P H ltac:(lia)) as A. pose proof (add_row n l r' r P H' ltac:(lia)) as A'. rewrite E in A. rewrite Z.eqb_refl in A. destruct (Z.eqb_spec r r'); lia.
Qed.

Lemma NoDup_map_inj_on {A B} (f : A -> B) l : NoDup l -> (forall x y, In x l -> In y l -> f x = f y -> x = y) -> NoDup (map f l).
Proof.
  induction l as [|x l IH]; intros N H; cbn; [constructor|]. inversion N; subst. constructor.
  - rewrite in_map_iff. intros (y & E & Hy). apply H in E; cbn; auto. subst. contradiction.
  - apply IH; auto. intros. apply H; cbn; auto.
Qed.

Lemma NoDup_aboves n l : is_part n l -> NoDup (aboves l).
Proof. intros P. apply NoDup_map_inj_on; [apply NoDup_adds|]. intros. eapply padd_inj_row; eauto. Qed.

Lemma above_below n l lam : is_part n l -> 0 <= n -> (In lam (aboves l) <-> is_part (n + 1) lam /\ In l (belows lam)).
Proof.
  intros P Hn. unfold aboves, belows. rewrite !in_map_iff. split.
  - intros (r & <- & Hr). split; [eapply add_part; eauto|]. exists r. split; [eapply prem_add; eauto|eapply add_corner; eauto].
  - intros (Q & r & E & Hr). exists r. subst l. split; [eapply padd_rem; eauto|eapply rem_add; eauto].
Qed.

Lemma above_spec n l lam : is_part n l -> 0 <= n -> (In lam (aboves l) <-> is_part (n + 1) lam /\ contained l lam).
Proof.
  intros P Hn. rewrite (above_below n l lam P Hn). split; intros (Q & H); split; auto; pose proof (proj2 (belows_spec (n + 1) lam Q ltac:(lia)) l) as W; replace (n + 1 - 1) with n in W by lia; tauto.
Qed.

(* ---- restriction ---- *)
Lemma one_hit x xs m : NoDup xs -> zsum_over (map (fun y => (y, m)) xs) (fun p => if pdec (fst p) x then snd p else 0) = if isin x xs then m else 0.
Proof.
  intros N. rewrite zsum_over_map. cbn. induction xs as [|y xs IH]; [reflexivity|]. inversion N; subst. rewrite zsum_over_cons, IH by auto. destruct (pdec y x) as [->|E].
  - destruct (isin x xs) eqn:Q; [apply isin_true in Q; contradiction|]. rewrite (proj2 (isin_true x (x :: xs))) by (cbn; auto). lia.
  - destruct (isin x xs) eqn:Q; [rewrite (proj2 (isin_true x (y :: xs))) by (apply isin_true in Q; cbn; auto); lia|].
    destruct (isin x (y :: xs)) eqn:W; auto. apply isin_true in W as [W|W]; [contradiction|]. apply isin_true in W. congruence.
Qed.

Lemma down_type n t : type_of n t -> 1 <= n -> exists R, ty_down t = Ret R /\ type_of (n - 1) R /\
  (forall mu, In mu (map fst R) <-> is_part (n - 1) mu /\ exists l, In l (map fst t) /\ contained mu l) /\
  forall mu L, is_part (n - 1) mu -> NoDup L -> (forall l, In l L <-> is_part n l /\ contained mu l) -> mult R mu = zsum_over L (mult t).
Proof.
  intros T Hn. unfold ty_down. assert (forall p, In p t -> is_part n (fst p)) as HP by (intros p Hp; destruct T as (_ & F); rewrite Forall_forall in F; apply F, in_map; auto).
  set (ev := flat_map (fun p => map (fun mu => (mu, snd p)) (belows (fst p))) t).
  assert (forall s, foldM (fun (p : list Z * Z) R => ms <- ip_foreach_sub (fst p) ;; foldM (fun mu R => ty_add R mu (snd p)) ms R) t s = foldM (fun p t => ty_add t (fst p) (snd p)) ev s) as E.
  { unfold ev. clear T ev. induction t as [|p t IH]; intros s; [reflexivity|]. cbn [foldM flat_map]. rewrite (ip_foreach_sub_ok n) by (auto; apply HP; cbn; auto). cbn [bind]. fold (belows (fst p)). rewrite foldM_app, (foldM_mapp (fun mu => (mu, snd p))). cbn [fst snd].
    destruct (foldM (fun mu R => ty_add R mu (snd p)) (belows (fst p)) s); cbn; auto. apply IH. intros; apply HP; cbn; auto. }
  rewrite E. destruct (adds_ok (n - 1) ev [] (type_nil _)) as (R & ER & TR & I & A).
  { apply Forall_forall. intros mu H. apply in_map_iff in H as ((x & m) & <- & H). apply in_flat_map in H as (p & Hp & H). apply in_map_iff in H as (y & Q & H). injection Q as <- _. apply (belows_spec n (fst p)) in H; auto. tauto. }
  exists R. split; auto. split; auto. split.
  - intros mu. rewrite I. cbn. split.
    + intros [H|[]]. apply in_map_iff in H as ((x & m) & <- & H). apply in_flat_map in H as (p & Hp & H). apply in_map_iff in H as (y & Q & H). injection Q as <- _. apply (belows_spec n (fst p)) in H as (H1 & H2); auto. cbn. split; auto. exists (fst p). split; auto. apply in_map; auto.
    + intros (H1 & l & Hl & H2). left. apply in_map_iff in Hl as (p & <- & Hp). apply in_map_iff. exists (mu, snd p). split; auto. apply in_flat_map. exists p. split; auto. apply in_map_iff. exists mu. split; auto. apply (belows_spec n (fst p)); auto.
  - intros mu L Hmu N HL. rewrite A. cbn [mult]. rewrite Z.add_0_l. unfold msum, ev. rewrite zsum_over_flat. rewrite <- (type_sum n t L (fun l => isin mu (belows l))); auto.
    + apply zsum_over_ext. intros p Hp. apply one_hit. apply (belows_spec n); auto.
    + intros l. rewrite HL, isin_true. split; intros (P & Q); split; auto; apply (belows_spec n l P Hn); auto.
Qed.

Lemma down_part n l : is_part n l -> 1 <= n -> exists R, ty_down1 l = Ret R /\ type_of (n - 1) R /\ forall mu, mult R mu = if isin mu (belows l) then 1 else 0.
Proof.
  intros P Hn. unfold ty_down1. rewrite (ip_foreach_sub_ok n) by auto. cbn [bind]. fold (belows l). destruct (belows_spec n l P Hn) as (N & I). destruct (adds_ok (n - 1) (map (fun mu => (mu, 1)) (belows l)) [] (type_nil _)) as (R & ER & TR & IR & A).
  { apply Forall_forall. intros x H. rewrite map_map in H. cbn in H. rewrite map_id in H. apply I in H. tauto. }
  rewrite foldM_mapp in ER. cbn [fst snd] in ER. exists R. split; auto. split; auto. intros mu. rewrite A. cbn [mult]. unfold msum. rewrite one_hit by auto. lia.
Qed.

(* ---- dimensions ---- *)
Definition dimZ (l : list Z) : Z := io_d (mkirr (zsum l) l).
Lemma dimZ_tabs n l : is_part n l -> 1 <= n -> exists ts, young_tableaux l = Ret ts /\ dimZ l = Z.of_nat (length ts).
Proof.
  intros P Hn. unfold dimZ. rewrite (is_part_sum n l P). destruct (mkirr_ok n l P Hn) as (_ & G). rewrite (young_tableaux_ok n) by auto. eexists. split; [reflexivity|].
  reflexivity.
Qed.
Lemma dimZ_R n l : is_part n l -> IZR (dimZ l) = dimR n l.
Proof. intros P. unfold dimZ, dimR. rewrite (is_part_sum n l P). reflexivity. Qed.

Lemma type_dim_sum n t D : type_of n t -> 1 <= n -> (type_dim t D <-> D = zsum_over t (fun p => snd p * dimZ (fst p))).
Proof.
  intros (_ & F) Hn. rewrite Forall_forall in F. assert (forall p, In p t -> is_part n (fst p)) as HP by (intros p Hp; apply F, in_map; auto). clear F.
  assert (exists ds, Forall2 (fun p d => exists ts, young_tableaux (fst p) = Ret ts /\ d = snd p * Z.of_nat (length ts)) t ds /\ zsum_over t (fun p => snd p * dimZ (fst p)) = zsum ds) as (ds & FD & ED).
  { induction t as [|p t IH]; [exists []; split; constructor|]. destruct IH as (ds & FD & ED); [intros; apply HP; cbn; auto|]. destruct (dimZ_tabs n (fst p) (HP p (or_introl eq_refl)) Hn) as (ts & ET & EL). exists (snd p * dimZ (fst p) :: ds). split.
    - constructor; auto. exists ts. rewrite EL. auto.
    - rewrite zsum_over_cons, ED. reflexivity. }
  split.
  - intros (ds' & F' & ->). rewrite ED. clear ED HP. revert ds' F'. induction FD as [|p d t ds (ts & E & ->) FD IH]; intros ds' F'; inversion F' as [|? d' ? ds1 (ts' & E' & ->) F1]; subst; [reflexivity|]. rewrite E in E'. apply Ret_inj in E'. subst ts'. cbn [zsum fold_right]. fold (zsum ds) (zsum ds1). rewrite (IH ds1 F1). auto.
  - intros ->. exists ds. split; auto.
Qed.

Lemma keys_below n t p : type_of n t -> In p t -> is_part n (fst p).
Proof. intros (_ & F) Hp. rewrite Forall_forall in F. apply F, in_map; auto. Qed.

Lemma all_below n mu : 1 <= n -> is_part (n - 1) mu -> exists L, NoDup L /\ forall l, In l L <-> is_part n l /\ contained mu l.
Proof.
  intros Hn P. exists (aboves mu). split; [eapply NoDup_aboves; eauto|]. intros l. assert (0 <= n - 1) as H0 by lia. pose proof (above_spec (n - 1) mu l P H0) as W. replace (n - 1 + 1) with n in W by lia. exact W.
Qed.

Lemma IZR_zsum_over {A} (L : list A) f : IZR (zsum_over L f) = Proof_Sum.lsum L (fun x => IZR (f x)).
Proof. apply IZR_zsum. Qed.

Lemma dimZ_down n l : is_part n l -> 2 <= n -> dimZ l = zsum_over (belows l) dimZ.
Proof.
  intros P Hn. apply eq_IZR. rewrite (dimZ_R n) by auto. rewrite (dimR_down n) by auto. unfold belows. rewrite zsum_over_map, IZR_zsum_over. apply Proof_Sum.lsum_ext. intros r Hr. symmetry. apply dimZ_R. eapply corner_part; eauto.
Qed.

Lemma dimZ_up n l : is_part n l -> 1 <= n -> zsum_over (aboves l) dimZ = (n + 1) * dimZ l.
Proof.
  intros P Hn. apply eq_IZR. rewrite mult_IZR, (dimZ_R n) by auto. unfold aboves. rewrite zsum_over_map, IZR_zsum_over. pose proof (updown (Z.to_nat (n - 1)) l) as U. replace (Z.of_nat (Z.to_nat (n - 1)) + 1) with n in U by lia. rewrite <- U by auto.
  apply Proof_Sum.lsum_ext. intros r Hr. apply dimZ_R. eapply add_part; eauto.
Qed.

(* sum over the entries of a type whose multiplicities come from another one along a relation *)
Lemma moved_dim n n' t R (rel : list Z -> list (list Z)) (c : list Z -> Z) (f : list Z -> Z) : type_of n t -> type_of n' R ->
  (forall l, is_part n l -> NoDup (rel l) /\ (forall x, In x (rel l) -> is_part n' x) /\ zsum_over (rel l) f = c l) ->
  (forall x, mult R x = zsum_over t (fun p => if isin x (rel (fst p)) then snd p else 0)) ->
  (forall x, In x (map fst R) <-> exists l, In l (map fst t) /\ In x (rel l)) ->
  zsum_over R (fun p => snd p * f (fst p)) = zsum_over t (fun p => snd p * c (fst p)).
Proof.
  intros T TR HR HM HK. rewrite (entries_keys n' R (fun l m => m * f l)) by auto.
  rewrite (zsum_over_ext _ _ (fun x => zsum_over t (fun p => (if isin x (rel (fst p)) then snd p * f x else 0)))).
  2:{ intros x _. rewrite HM, Z.mul_comm, <- zsum_over_scal. apply zsum_over_ext. intros p _. destruct (isin x (rel (fst p))); lia. }
  rewrite zsum_over_swap. apply zsum_over_ext. intros p Hp. destruct (HR (fst p) (keys_below n t p T Hp)) as (N & I & S). rewrite <- S, <- zsum_over_scal.
  rewrite (zsum_over_sub pdec (rel (fst p)) (map fst R)); auto.
  - apply zsum_over_ext. intros x Hx. rewrite (proj2 (isin_true _ _) Hx). auto.
  - eapply type_nodup; eauto.
  - intros x Hx. apply HK. exists (fst p). split; auto. apply in_map; auto.
  - intros x _ Hx. destruct (isin x (rel (fst p))) eqn:Q; auto. apply isin_true in Q. contradiction.
Qed.

Lemma down_mult n t R mu : type_of n t -> 1 <= n -> ty_down t = Ret R -> mult R mu = zsum_over t (fun p => if isin mu (belows (fst p)) then snd p else 0).
Proof.
  intros T Hn E. destruct (down_type n t T Hn) as (R' & E' & TR & IK & M). rewrite E in E'. apply Ret_inj in E'. subst R'. destruct (in_dec pdec mu (map fst R)) as [H|H].
  - apply IK in H as (P & _). destruct (all_below n mu Hn P) as (L & N & HL). rewrite (M mu L) by auto. symmetry. apply (type_sum n t L (fun l => isin mu (belows l))); auto. intros l. rewrite HL, isin_true. split; intros (A & B); split; auto; apply (belows_spec n l A Hn); auto.
  - rewrite mult_notin by auto. symmetry. apply zsum_over_0. intros p Hp. destruct (isin mu (belows (fst p))) eqn:Q; auto. apply isin_true in Q. destruct H. pose proof (keys_below n t p T Hp) as P. apply (belows_spec n _ P Hn) in Q as (Q1 & Q2). apply IK. split; auto. exists (fst p). split; auto. apply in_map; auto.
Qed.

Lemma down_dim n t D : type_of n t -> 2 <= n -> type_dim t D -> exists R, ty_down t = Ret R /\ type_dim R D.
Proof.
  intros T Hn HD. destruct (down_type n t T ltac:(lia)) as (R & E & TR & IK & _). exists R. split; auto. apply (type_dim_sum n t D T ltac:(lia)) in HD. apply (type_dim_sum (n - 1) R D TR ltac:(lia)). subst D. symmetry.
  apply (moved_dim n (n - 1) t R belows dimZ dimZ); auto.
  - intros l P. destruct (belows_spec n l P ltac:(lia)) as (N & I). split; auto. split; [intros x Hx; apply I in Hx; tauto|]. symmetry. apply (dimZ_down n); auto.
  - intros x. apply (down_mult n); auto. lia.
  - intros x. rewrite IK. split.
    + intros (P & l & Hl & C). exists l. split; auto. assert (is_part n l) as Pl by (destruct T as (_ & F); rewrite Forall_forall in F; auto). apply (belows_spec n l Pl ltac:(lia)). auto.
    + intros (l & Hl & H). assert (is_part n l) as Pl by (destruct T as (_ & F); rewrite Forall_forall in F; auto). apply (belows_spec n l Pl ltac:(lia)) in H as (H1 & H2). split; auto. exists l. auto.
Qed.
