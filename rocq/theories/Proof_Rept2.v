(* Induced representations, their objects and the bank. *)
From Coq Require Import ZArith List Bool Lia ZifyBool Sorting.Sorted Permutation.
From Verif Require Import Model_Base Model_Part Model_Comb Model_Tab Model_Irrep Model_Type.
From Verif Require Import Spec_Part Spec_Tab Spec_Type.
From Verif Require Import Proof_Base Proof_Part Proof_PartProps Proof_UpDown Proof_FFTlay Proof_Map Proof_Type Proof_Rept.
Import ListNotations.
Open Scope Z_scope.

Definition im (r : list (list Z * iso)) (x : list Z) : Z := match aget pdec r x with Some i => is_m i | None => 0 end.
Definition isb (r : list (list Z * iso)) (x : list Z) : list (list Z) := match aget pdec r x with Some i => is_subs i | None => [] end.
(* the keys are partitions of n in order, and each isotypic knows its own *)
Definition rvalid (n : Z) (r : list (list Z * iso)) : Prop := pvalid n r /\ forall x i, aget pdec r x = Some i -> is_lambda i = x.

Lemma rvalid_aget n r x : rvalid n r -> In x (map fst r) -> aget pdec r x = Some (mkIso x (im r x) (isb r x)).
Proof. intros (_ & H) I. apply (aget_in pdec) in I as (i & E). pose proof (H x i E) as L. unfold im, isb. rewrite E. destruct i. cbn in *. subst. auto. Qed.

Lemma rep_add_ok n r l key sub : rvalid n r -> is_part n l -> exists r', rep_add r l key sub = Ret r' /\ rvalid n r' /\ (forall x, In x (map fst r') <-> x = l \/ In x (map fst r)) /\
  (forall x, im r' x = im r x + if pdec l x then is_m sub else 0) /\ (forall x, isb r' x = isb r x ++ if pdec l x then [key] else []).
Proof.
  intros (V & HL) P. unfold rep_add. rewrite (pfind_ok n) by auto. cbn [bind].
  assert (exists r1, match aget pdec r l with Some _ => Ret r | None => sm_put ip_lt r l (mkIso l 0 []) end = Ret r1 /\ rvalid n r1 /\ (forall x, In x (map fst r1) <-> x = l \/ In x (map fst r)) /\ (forall x, im r1 x = im r x) /\ (forall x, isb r1 x = isb r x) /\ In l (map fst r1)) as (r1 & E1 & (V1 & HL1) & I1 & M1 & B1 & K1).
  { destruct (aget pdec r l) as [i|] eqn:Q.
    - exists r. pose proof (aget_some pdec r l i Q) as H. split; auto. split; [split; auto|]. split; auto. intros x. split; auto. intros [->|]; auto.
    - destruct (pput_ok n r l (mkIso l 0 []) V P) as (r1 & E & V1 & I & A). exists r1. split; auto. split; [split; auto|].
      + intros x i. rewrite A. destruct (pdec l x) as [->|]; [intros H; injection H as <-; auto|apply HL].
      + split; auto. split; [|split].
        * intros x. unfold im. rewrite A. destruct (pdec l x) as [<-|]; [rewrite Q|]; auto.
        * intros x. unfold isb. rewrite A. destruct (pdec l x) as [<-|]; [rewrite Q|]; auto.
        * apply I. auto. }
  rewrite E1. cbn [bind]. rewrite (pfind_ok n) by auto. cbn [bind]. rewrite (rvalid_aget n r1 l) by (auto; split; auto). cbn [is_lambda is_m is_subs].
  destruct (pput_ok n r1 l (mkIso l (im r1 l + is_m sub) (isb r1 l ++ [key])) V1 P) as (r' & E' & V' & I' & A'). exists r'. split; auto. split; [split; auto|split; [|split]].
  - intros x i. rewrite A'. destruct (pdec l x) as [->|]; [intros H; injection H as <-; auto|apply HL1].
  - intros x. rewrite I', I1. tauto.
  - intros x. unfold im at 1. rewrite A'. destruct (pdec l x) as [<-|]; [cbn; rewrite M1; auto|]. fold (im r1 x). rewrite M1. lia.
  - intros x. unfold isb at 1. rewrite A'. destruct (pdec l x) as [<-|]; [cbn; rewrite B1; auto|]. fold (isb r1 x). rewrite B1, app_nil_r. auto.
Qed.

Definition ev := (list Z * (list Z * iso))%type.
Lemma rep_adds_ok n (es : list ev) r : rvalid n r -> Forall (is_part n) (map fst es) -> exists r', foldM (fun e r => rep_add r (fst e) (fst (snd e)) (snd (snd e))) es r = Ret r' /\ rvalid n r' /\ (forall x, In x (map fst r') <-> In x (map fst es) \/ In x (map fst r)) /\
  (forall x, im r' x = im r x + zsum_over es (fun e => if pdec (fst e) x then is_m (snd (snd e)) else 0)) /\ (forall x, isb r' x = isb r x ++ flat_map (fun e : ev => if pdec (fst e) x then [fst (snd e)] else []) es).
Proof.
  revert r. induction es as [|(l, (k, i)) es IH]; intros r V F.
  - exists r. cbn. split; auto. split; auto. split; [tauto|]. split; intros x; [lia|rewrite app_nil_r; auto].
  - cbn [map fst] in F. inversion F; subst. cbn [foldM fst snd]. destruct (rep_add_ok n r l k i V) as (r1 & E & V1 & I1 & M1 & B1); auto. rewrite E. cbn [bind]. destruct (IH r1 V1) as (r' & E' & V' & I' & M' & B'); auto. exists r'. split; auto. split; auto. split; [|split].
    + intros x. rewrite I', I1. cbn. intuition congruence.
    + intros x. rewrite M', M1, zsum_over_cons. cbn [fst snd]. lia.
    + intros x. rewrite B', B1, <- app_assoc. reflexivity.
Qed.

Definition ievents (r : list (list Z * iso)) : list ev := flat_map (fun p => map (fun x => (x, p)) (aboves (fst p))) r.

Lemma induce_events n r : rvalid n r -> 1 <= n -> rep_induce r = foldM (fun e r => rep_add r (fst e) (fst (snd e)) (snd (snd e))) (ievents r) [].
Proof.
  intros V Hn. unfold rep_induce, ievents.
  assert (forall p, In p r -> is_part n (fst p) /\ is_lambda (snd p) = fst p) as HP.
  { intros p Hp. destruct V as ((S1 & F) & HL). rewrite Forall_forall in F. split; [apply F, in_map; auto|]. apply HL. pose proof (sorted_nodup _ S1) as N. clear - Hp N.
    induction r as [|(k, i) r IH]; [contradiction|]. cbn [map fst] in N. inversion N; subst. cbn [aget]. destruct Hp as [<-|Hp]; cbn [fst snd].
    - destruct (pdec k k); [auto|contradiction].
    - destruct (pdec k (fst p)) as [->|]; auto. destruct H1. apply in_map; auto. }
  clear V. generalize (@nil (list Z * iso)) as mu0. induction r as [|p r IH]; intros mu0; [reflexivity|]. cbn [foldM flat_map]. rewrite foldM_app. destruct (HP p (or_introl eq_refl)) as (P & L). cbv zeta. rewrite L. set (l := fst p) in *.
  assert (forall mu, (mu <- zfor 0 (zlen l) (fun i mu =>
      b <- (if i =? 0 then Ret true else x <- rd l i ;; y <- rd l (i - 1) ;; Ret (x <? y)) ;;
      if b : bool then x <- rd l i ;; up <- wr l i (x + 1) ;; rep_add mu up l (snd p) else Ret mu) mu ;;
    up <- ip_add l (zlen l) 1 ;; rep_add mu up l (snd p)) = foldM (fun e r => rep_add r (fst e) (fst (snd e)) (snd (snd e))) (map (fun x => (x, p)) (aboves l)) mu) as K.
  { intros mu. rewrite (foldM_mapp (fun x => (x, p))). cbn [fst snd]. fold l. unfold aboves. rewrite (foldM_mapp (padd l)). unfold adds.
    pose proof (zlen_nonneg l) as Z0. assert (1 <= zlen l) as Z1. { destruct l as [|x l0] eqn:El; [pose proof (is_part_sum n [] P) as Q; cbn in Q; lia|]. rewrite zlen_cons. pose proof (zlen_nonneg l0). lia. }
    assert (zrange 0 (zlen l + 1) = zrange 0 (zlen l) ++ [zlen l]) as -> by (apply zrange_snoc; lia).
    rewrite filter_app, foldM_app. cbn [filter]. assert ((zlen l =? 0) || (row l (zlen l) <? row l (zlen l - 1)) = true) as ->.
    { pose proof (ppos_row l (zlen l - 1) ltac:(eauto) ltac:(lia)). rewrite (row_out l (zlen l)) by lia. lia. }
    unfold zfor. rewrite <- foldM_cond.
    assert (forall s, foldM (fun i mu => b <- (if i =? 0 then Ret true else x <- rd l i ;; y <- rd l (i - 1) ;; Ret (x <? y)) ;; if b : bool then x <- rd l i ;; up <- wr l i (x + 1) ;; rep_add mu up l (snd p) else Ret mu) (zrange 0 (zlen l)) s =
        foldM (fun i r => if (i =? 0) || (row l i <? row l (i - 1)) then rep_add r (padd l i) l (snd p) else Ret r) (zrange 0 (zlen l)) s) as Q.
    { intros s0. apply foldM_ext. intros i s1 Hi. apply in_zrange in Hi. rewrite (rd_ok l i 0) by lia.
      assert ((if i =? 0 then Ret true else x <- Ret (znth l i 0) ;; y <- rd l (i - 1) ;; Ret (x <? y)) = Ret ((i =? 0) || (row l i <? row l (i - 1)))) as ->.
      { destruct (Z.eqb_spec i 0); [reflexivity|]. rewrite (rd_ok l (i - 1) 0) by lia. reflexivity. }
      cbn [bind]. destruct ((i =? 0) || (row l i <? row l (i - 1))); auto. rewrite wr_ok by lia. cbn [bind]. unfold padd. destruct (Z.ltb_spec i (zlen l)); [|lia]. reflexivity. }
    rewrite Q. destruct (foldM _ (zrange 0 (zlen l)) mu); cbn [bind]; auto. rewrite ip_add_ok by lia. cbn [bind foldM]. destruct (rep_add a (padd l (zlen l)) l (snd p)); reflexivity. }
  rewrite K. destruct (foldM _ (map (fun x => (x, p)) (aboves l)) mu0); cbn [bind]; auto. apply IH. intros; apply HP; cbn; auto.
Qed.

(* ---- the type of an object ---- *)

Lemma puts_gen {V} n (ps m : list (list Z * V)) : pvalid n ps -> pvalid n m -> exists m', foldM (fun p r => sm_put ip_lt r (fst p) (snd p)) ps m = Ret m' /\ pvalid n m' /\ forall x, aget pdec m' x = match aget pdec ps x with Some v => Some v | None => aget pdec m x end.
Proof.
  revert m. induction ps as [|(k, v) ps IH]; intros m V1 V2.
  - exists m. split; auto.
  - cbn [foldM fst snd]. apply mvalid_inv in V1 as (P & F & V1). destruct (pput_ok n m k v V2 P) as (m1 & E & W & _ & A). rewrite E. cbn [bind]. destruct (IH m1 V1 W) as (m' & E' & W' & A'). exists m'. split; auto. split; auto. intros x. rewrite A', A. cbn [aget]. destruct (pdec k x) as [<-|]; auto.
    rewrite (aget_none pdec ps k); auto. intros y Hy ->. rewrite Forall_forall in F. exact (lex_irrefl _ (F k Hy)).
Qed.
Lemma puts_ok {V} n (ps : list (list Z * V)) : pvalid n ps -> foldM (fun p r => sm_put ip_lt r (fst p) (snd p)) ps [] = Ret ps.
Proof. intros H. destruct (puts_gen n ps [] H (pvalid_nil n)) as (m' & E & W & A). rewrite E. f_equal. apply (pext n); auto. intros k. rewrite A. destruct (aget pdec ps k); auto. Qed.

Lemma keys_map {V W} (f : list Z -> V -> W) (r : list (list Z * V)) : map fst (map (fun p => (fst p, f (fst p) (snd p))) r) = map fst r.
Proof. rewrite map_map. apply map_ext. auto. Qed.

Lemma pvalid_map {V W} n (f : list Z -> V -> W) (r : list (list Z * V)) : pvalid n r -> pvalid n (map (fun p => (fst p, f (fst p) (snd p))) r).
Proof. intros (A & B). split; rewrite keys_map; auto. Qed.

Lemma aget_map {V W} (f : list Z -> V -> W) r x : aget pdec (map (fun p => (fst p, f (fst p) (snd p))) r) x = match aget pdec r x with Some v => Some (f x v) | None => None end.
Proof. induction r as [|(k, v) r IH]; auto. cbn. destruct (pdec k x) as [->|]; auto. Qed.

Definition isos_of (t : list (list Z * Z)) : list (list Z * iso) := map (fun p => (fst p, mkIso (fst p) (snd p) [])) t.
Definition typ (r : list (list Z * iso)) : list (list Z * Z) := map (fun p => (fst p, is_m (snd p))) r.

Lemma rep_isos_ok n t : type_of n t -> rep_isos t = Ret (isos_of t) /\ rvalid n (isos_of t).
Proof.
  intros T. pose proof (pvalid_map n (fun k m => mkIso k m []) t T) as V. split.
  - unfold rep_isos. rewrite <- (puts_ok n (isos_of t) V). unfold isos_of. rewrite (foldM_mapp (fun p => (fst p, mkIso (fst p) (snd p) []))). reflexivity.
  - split; auto. intros x i. unfold isos_of. rewrite (aget_map (fun k m => mkIso k m [])). destruct (aget pdec t x); [|discriminate]. intros H. injection H as <-. auto.
Qed.

Lemma rep_type_ok n r : rvalid n r -> rep_type r = Ret (typ r) /\ type_of n (typ r).
Proof.
  intros (V & _). pose proof (pvalid_map n (fun k i => is_m i) r V) as W. split; auto.
  unfold rep_type. rewrite <- (puts_ok n (typ r) W). unfold typ. rewrite (foldM_mapp (fun p => (fst p, is_m (snd p)))). reflexivity.
Qed.
Lemma typ_isos t : typ (isos_of t) = t.
Proof. unfold typ, isos_of. rewrite map_map. rewrite <- (map_id t) at 2. apply map_ext. intros (k, m). auto. Qed.
Lemma mult_typ r x : mult (typ r) x = im r x.
Proof. rewrite mult_aget. unfold typ, im. rewrite (aget_map (fun k i => is_m i)). destruct (aget pdec r x); auto. Qed.
Lemma keys_typ r : map fst (typ r) = map fst r.
Proof. apply (keys_map (fun k i => is_m i)). Qed.

(* ---- induction ---- *)

Lemma rvalid_keys n r p : rvalid n r -> In p r -> is_part n (fst p).
Proof. intros ((_ & F) & _) H. rewrite Forall_forall in F. apply F, in_map; auto. Qed.

Lemma events_hit n r x : rvalid n r -> zsum_over (ievents r) (fun e => if pdec (fst e) x then is_m (snd (snd e)) else 0) = zsum_over (typ r) (fun p => if isin x (aboves (fst p)) then snd p else 0).
Proof.
  intros V. unfold ievents, typ. rewrite zsum_over_flat, zsum_over_map. apply zsum_over_ext. intros p Hp. rewrite zsum_over_map. cbn [fst snd].
  pose proof (one_hit x (aboves (fst p)) (is_m (snd p)) (NoDup_aboves n _ (rvalid_keys n r p V Hp))) as H. rewrite zsum_over_map in H. exact H.
Qed.

Lemma hit_list {B} x xs (b : B) : NoDup xs -> flat_map (fun y => if pdec y x then [b] else []) xs = if isin x xs then [b] else [].
Proof.
  induction xs as [|y xs IH]; intros N; [reflexivity|]. inversion N; subst. cbn [flat_map]. rewrite IH by auto. destruct (pdec y x) as [->|NE].
  - rewrite (proj2 (isin_true x (x :: xs))) by (cbn; auto). destruct (isin x xs) eqn:Q; auto. apply isin_true in Q. contradiction.
  - destruct (isin x xs) eqn:Q.
    + apply isin_true in Q. rewrite (proj2 (isin_true x (y :: xs))) by (cbn; auto). auto.
    + destruct (isin x (y :: xs)) eqn:Q'; auto. apply isin_true in Q' as [->|Q']; [contradiction|]. apply isin_true in Q'. congruence.
Qed.

Lemma flat_map_mapp {A B C} (f : B -> list C) (g : A -> B) l : flat_map f (map g l) = flat_map (fun x => f (g x)) l.
Proof. induction l as [|x l IH]; auto. cbn. rewrite IH. auto. Qed.

Lemma events_subs n r x : rvalid n r -> flat_map (fun e : ev => if pdec (fst e) x then [fst (snd e)] else []) (ievents r) = filter (fun l => isin x (aboves l)) (map fst r).
Proof.
  intros V. unfold ievents. assert (forall p, In p r -> is_part n (fst p)) as H by (intros; eapply rvalid_keys; eauto). clear V. induction r as [|p r IH]; auto. cbn [flat_map map filter]. rewrite flat_map_app. unfold ev in *. rewrite IH by (intros; apply H; cbn; auto).
  rewrite flat_map_mapp. cbn [fst snd]. rewrite hit_list by (apply (NoDup_aboves n), H; cbn; auto). destruct (isin x (aboves (fst p))); auto.
Qed.

Lemma part_below n x : 1 <= n -> is_part (n + 1) x -> exists L, NoDup L /\ forall l, In l L <-> is_part n l /\ contained l x.
Proof. intros Hn P. exists (belows x). destruct (belows_spec (n + 1) x P ltac:(lia)) as (N & I). split; auto. intros l. rewrite I. replace (n + 1 - 1) with n by lia. tauto. Qed.

Lemma induce_ok n r : rvalid n r -> 1 <= n -> exists r', rep_induce r = Ret r' /\ rvalid (n + 1) r' /\ induced_type n (typ r) (typ r') /\
  (forall x, isb r' x = filter (fun l => isin x (aboves l)) (map fst r)) /\ (forall x, im r' x = zsum_over (typ r) (fun p => if isin x (aboves (fst p)) then snd p else 0)).
Proof.
  intros V Hn. rewrite (induce_events n) by auto.
  destruct (rep_adds_ok (n + 1) (ievents r) []) as (r' & E & V' & I' & M' & B').
  { split; [apply pvalid_nil|discriminate]. }
  { apply Forall_forall. intros x Hx. unfold ievents in Hx. apply in_map_iff in Hx as (e & <- & He). apply in_flat_map in He as (p & Hp & He). apply in_map_iff in He as (y & <- & Hy). cbn. apply (above_spec n (fst p)) in Hy; try lia; [tauto|]. eapply rvalid_keys; eauto. }
  exists r'. split; auto. split; auto. destruct (rep_type_ok (n + 1) r' V') as (_ & T'). destruct (rep_type_ok n r V) as (_ & T).
  assert (forall x, im r' x = zsum_over (typ r) (fun p => if isin x (aboves (fst p)) then snd p else 0)) as M by (intros x; rewrite M', (events_hit n) by auto; reflexivity).
  split; [|split; auto; intros x; rewrite B'; apply (events_subs n); auto].
  split; auto. split.
  - intros x. rewrite keys_typ, I'. cbn [map In]. unfold ievents. split.
    + intros [Hx|[]]. apply in_map_iff in Hx as (e & <- & He). apply in_flat_map in He as (p & Hp & He). apply in_map_iff in He as (y & <- & Hy). cbn. apply (above_spec n (fst p)) in Hy; try lia; [|eapply rvalid_keys; eauto]. split; [tauto|]. exists (fst p). rewrite keys_typ. split; [apply in_map; auto|tauto].
    + intros (P & l & Hl & C). left. rewrite keys_typ in Hl. apply in_map_iff in Hl as (p & <- & Hp). apply in_map_iff. exists (x, p). split; auto. apply in_flat_map. exists p. split; auto. apply in_map_iff. exists x. split; auto. apply (above_spec n (fst p)); auto; try lia. eapply rvalid_keys; eauto.
  - intros x L P N HL. rewrite mult_typ, M. apply (type_sum n (typ r) L (fun l => isin x (aboves l))); auto. intros l. rewrite HL, isin_true. split; intros (A & B); split; auto; apply (above_spec n l) in B || apply (above_spec n l); auto; try lia; tauto.
Qed.

Lemma induced_mult n t t' x : type_of n t -> 1 <= n -> induced_type n t t' -> mult t' x = zsum_over t (fun p => if isin x (aboves (fst p)) then snd p else 0).
Proof.
  intros T Hn (T' & K & M). destruct (in_dec pdec x (map fst t')) as [H|H].
  - apply K in H as (P & _). destruct (part_below n x Hn P) as (L & N & HL). rewrite (M x L) by auto. symmetry. apply (type_sum n t L (fun l => isin x (aboves l))); auto. intros l. rewrite HL, isin_true. split; intros (A & B); split; auto; apply (above_spec n l) in B || apply (above_spec n l); auto; try lia; tauto.
  - rewrite mult_notin by auto. symmetry. apply zsum_over_0. intros p Hp. destruct (isin x (aboves (fst p))) eqn:Q; auto. apply isin_true in Q. destruct H. pose proof (keys_below n t p T Hp) as P. apply (above_spec n) in Q; auto; try lia. apply K. split; [tauto|]. exists (fst p). split; [apply in_map; auto|tauto].
Qed.

Lemma induced_unique n t t1 t2 : type_of n t -> 1 <= n -> induced_type n t t1 -> induced_type n t t2 -> t1 = t2.
Proof.
  intros T Hn I1 I2. pose proof I1 as (T1 & K1 & _). pose proof I2 as (T2 & K2 & _). apply (type_determined (n + 1)); auto; [intros l; rewrite K1, K2; tauto|]. intros l. rewrite (induced_mult n t t1), (induced_mult n t t2) by auto. auto.
Qed.

Lemma induced_dim n t t' D : type_of n t -> 1 <= n -> induced_type n t t' -> type_dim t D -> type_dim t' ((n + 1) * D).
Proof.
  intros T Hn I HD. pose proof I as (T' & K & _). apply (type_dim_sum n t D T Hn) in HD. apply (type_dim_sum (n + 1) t' _ T' ltac:(lia)). subst D. rewrite <- zsum_over_scal. symmetry.
  rewrite (moved_dim n (n + 1) t t' aboves (fun l => (n + 1) * dimZ l) dimZ); auto.
  - apply zsum_over_ext. intros p _. lia.
  - intros l P. split; [apply (NoDup_aboves n); auto|]. split; [intros x Hx; apply (above_spec n) in Hx; auto; try lia; tauto|]. apply dimZ_up; auto.
  - intros x. apply induced_mult with (n := n); auto.
  - intros x. rewrite K. split.
    + intros (P & l & Hl & C). exists l. split; auto. apply (above_spec n); auto; try lia. destruct T as (_ & F). rewrite Forall_forall in F. auto.
    + intros (l & Hl & C). destruct T as (_ & F). rewrite Forall_forall in F. apply (above_spec n) in C; auto; try lia. split; [tauto|]. exists l. tauto.
Qed.

(* inducing and restricting are adjoint *)
Lemma frobenius n s s' t t' L L' : 1 <= n -> type_of n s -> induced_type n s s' -> type_of (n + 1) t -> ty_down t = Ret t' -> NoDup L -> (forall l, In l L <-> is_part n l) -> NoDup L' -> (forall l, In l L' <-> is_part (n + 1) l) ->
  zsum_over L' (fun x => mult s' x * mult t x) = zsum_over L (fun l => mult s l * mult t' l).
Proof.
  intros Hn TS IS TT E N HL N' HL'.
  assert (forall x, mult s' x = zsum_over L (fun l => if isin x (aboves l) then mult s l else 0)) as A.
  { intros x. rewrite (induced_mult n s s' x) by auto. rewrite (entries_keys n s (fun l m => if isin x (aboves l) then m else 0)) by auto. symmetry. apply (zsum_over_sub pdec); auto; [eapply type_nodup; eauto| |].
    - intros l Hl. apply HL. destruct TS as (_ & F). rewrite Forall_forall in F. auto.
    - intros l _ Hl. rewrite mult_notin by auto. destruct (isin x (aboves l)); auto. }
  assert (forall l, In l L -> mult t' l = zsum_over L' (fun x => if isin x (aboves l) then mult t x else 0)) as B.
  { intros l Hl. apply HL in Hl. rewrite (down_mult (n + 1) t t' l TT) by (auto; lia). rewrite (entries_keys (n + 1) t (fun x m => if isin l (belows x) then m else 0)) by auto.
    rewrite (zsum_over_ext _ _ (fun x => if isin x (aboves l) then mult t x else 0)).
    - symmetry. apply (zsum_over_sub pdec); auto; [eapply type_nodup; eauto| |].
      + intros x Hx. apply HL'. destruct TT as (_ & F). rewrite Forall_forall in F. auto.
      + intros x _ Hx. rewrite mult_notin by auto. destruct (isin x (aboves l)); auto.
    - intros x Hx. assert (is_part (n + 1) x) as P by (destruct TT as (_ & F); rewrite Forall_forall in F; auto). pose proof (above_below n l x Hl ltac:(lia)) as Q. destruct (isin l (belows x)) eqn:Q1, (isin x (aboves l)) eqn:Q2; auto.
      + apply isin_true in Q1. assert (In x (aboves l)) as Z by tauto. apply isin_true in Z. congruence.
      + apply isin_true in Q2. assert (In l (belows x)) as Z by tauto. apply isin_true in Z. congruence. }
  rewrite (zsum_over_ext L' _ (fun x => zsum_over L (fun l => mult t x * if isin x (aboves l) then mult s l else 0))) by (intros; rewrite zsum_over_scal, A; lia).
  rewrite zsum_over_swap. apply zsum_over_ext. intros l Hl. rewrite B by auto. rewrite <- zsum_over_scal. apply zsum_over_ext. intros x _. destruct (isin x (aboves l)); lia.
Qed.

Lemma induction_object n t : type_of n t -> 1 <= n -> exists r r' t', rep_isos t = Ret r /\ rep_type r = Ret t /\
  rep_induce r = Ret r' /\ rep_type r' = Ret t' /\ induced_type n t t' /\
  forall x i, In (x, i) r' -> is_lambda i = x /\ is_m i = mult t' x /\ exists keep, is_subs i = filter keep (map fst t) /\ forall l, In l (map fst t) -> (keep l = true <-> contained l x).
Proof.
  intros T Hn. destruct (rep_isos_ok n t T) as (E & V). destruct (rep_type_ok n _ V) as (E1 & _). rewrite typ_isos in E1. destruct (induce_ok n _ V Hn) as (r' & E' & V' & I & B & M). destruct (rep_type_ok (n + 1) _ V') as (E2 & T2). rewrite typ_isos in I.
  exists (isos_of t), r', (typ r'). split; auto. split; auto. split; auto. split; auto. split; auto. intros x i Hi.
  assert (In x (map fst r')) as K by (apply (in_map fst) in Hi; exact Hi).
  assert (aget pdec r' x = Some i) as A.
  { destruct V' as ((S1 & _) & _). pose proof (sorted_nodup _ S1) as N. clear - Hi N. induction r' as [|(k, j) r' IH]; [contradiction|]. cbn in N. inversion N; subst. cbn. destruct Hi as [Hi|Hi].
    - injection Hi as -> ->. destruct (pdec x x); [auto|contradiction].
    - destruct (pdec k x) as [->|]; auto. destruct H1. apply (in_map fst) in Hi. exact Hi. }
  rewrite (rvalid_aget (n + 1) r' x V' K) in A. injection A as <-. cbn [is_lambda is_m is_subs]. split; auto. split; [rewrite mult_typ; auto|]. exists (fun l => isin x (aboves l)). split.
  - rewrite B. f_equal. unfold isos_of. rewrite map_map. apply map_ext. auto.
  - intros l Hl. assert (is_part n l) as P by (destruct T as (_ & F); rewrite Forall_forall in F; auto). rewrite isin_true, (above_spec n l x P) by lia. assert (is_part (n + 1) x) as Px by (destruct V' as ((_ & F) & _); rewrite Forall_forall in F; auto). tauto.
Qed.

Lemma down_single n l : is_part n l -> 1 <= n -> exists R, ty_down1 l = Ret R /\ ty_down [(l, 1)] = Ret R.
Proof.
  intros P Hn. destruct (down_part n l P Hn) as (R & E & _). exists R. split; auto. rewrite <- E. unfold ty_down, ty_down1. cbn [foldM fst snd]. destruct (ip_foreach_sub l) as [ms| | |]; cbn [bind]; auto. destruct (foldM _ ms []); reflexivity.
Qed.
