(* Types of representations. *)
From Coq Require Import ZArith List Bool Lia ZifyBool Sorting.Sorted Permutation.
From Verif Require Import Model_Base Model_Part Model_Comb Model_Tab Model_Type.
From Verif Require Import Spec_Part Spec_Tab Spec_Type.
From Verif Require Import Proof_Base Proof_Part Proof_PartProps Proof_Map.
Import ListNotations.
Open Scope Z_scope.

Lemma pdec : forall a b : list Z, {a = b} + {a <> b}.
Proof. exact (list_eq_dec Z.eq_dec). Qed.

(* ---- sums ---- *)
Lemma zsum_over_nil {A} (f : A -> Z) : zsum_over [] f = 0. Proof. reflexivity. Qed.
Lemma zsum_over_cons {A} x l (f : A -> Z) : zsum_over (x :: l) f = f x + zsum_over l f. Proof. reflexivity. Qed.
Lemma zsum_over_app {A} l l' (f : A -> Z) : zsum_over (l ++ l') f = zsum_over l f + zsum_over l' f.
Proof. induction l as [|x l IH]; cbn [app]; rewrite ?zsum_over_cons, ?zsum_over_nil; lia. Qed.
Lemma zsum_over_ext {A} l (f g : A -> Z) : (forall x, In x l -> f x = g x) -> zsum_over l f = zsum_over l g.
Proof. induction l as [|x l IH]; intros H; auto. rewrite !zsum_over_cons, (H x), IH by (intros; try apply H; cbn; auto). auto. Qed.
Lemma zsum_over_flat {A B} l (g : A -> list B) (f : B -> Z) : zsum_over (flat_map g l) f = zsum_over l (fun x => zsum_over (g x) f).
Proof. induction l as [|x l IH]; auto. cbn [flat_map]. rewrite zsum_over_app, zsum_over_cons, IH. auto. Qed.
Lemma zsum_over_map {A B} l (g : A -> B) (f : B -> Z) : zsum_over (map g l) f = zsum_over l (fun x => f (g x)).
Proof. unfold zsum_over. rewrite map_map. reflexivity. Qed.
Lemma zsum_over_0 {A} (l : list A) f : (forall x, In x l -> f x = 0) -> zsum_over l f = 0.
Proof. induction l as [|x l IH]; intros H; auto. rewrite zsum_over_cons, (H x), IH by (intros; try apply H; cbn; auto). auto. Qed.
Lemma zsum_over_plus {A} (l : list A) f g : zsum_over l (fun x => f x + g x) = zsum_over l f + zsum_over l g.
Proof. induction l as [|x l IH]; auto. rewrite !zsum_over_cons, IH. lia. Qed.
Lemma zsum_over_scal {A} (l : list A) c f : zsum_over l (fun x => c * f x) = c * zsum_over l f.
Proof. induction l as [|x l IH]; [rewrite !zsum_over_nil; lia|]. rewrite !zsum_over_cons, IH. lia. Qed.
Lemma zsum_over_swap {A B} (l : list A) (l' : list B) f : zsum_over l (fun x => zsum_over l' (fun y => f x y)) = zsum_over l' (fun y => zsum_over l (fun x => f x y)).
Proof. induction l as [|x l IH]; [symmetry; apply zsum_over_0; auto|]. rewrite zsum_over_cons, IH, <- zsum_over_plus. apply zsum_over_ext. intros. rewrite zsum_over_cons. auto. Qed.
Lemma zsum_over_Perm {A} (l l' : list A) f : Permutation l l' -> zsum_over l f = zsum_over l' f.
Proof. induction 1; rewrite ?zsum_over_cons; lia. Qed.
Lemma zsum_over_same {A} (l l' : list A) f : NoDup l -> NoDup l' -> (forall x, In x l <-> In x l') -> zsum_over l f = zsum_over l' f.
Proof. intros. apply zsum_over_Perm, NoDup_Permutation; auto. Qed.
(* a sum over L of what is 0 outside l *)
Lemma zsum_over_sub {A} (dec : forall x y : A, {x = y} + {x <> y}) (l L : list A) f : NoDup l -> NoDup L -> (forall x, In x l -> In x L) -> (forall x, In x L -> ~ In x l -> f x = 0) -> zsum_over L f = zsum_over l f.
Proof.
  intros N M S Z0. rewrite (zsum_over_same l (filter (fun x => if in_dec dec x l then true else false) L)); auto using NoDup_filter.
  2:{ intros x. rewrite filter_In. destruct (in_dec dec x l); split; try tauto; auto. intros (_ & ?). discriminate. }
  clear N M S. induction L as [|x L IH]; auto. cbn [filter]. rewrite zsum_over_cons, IH by (intros; apply Z0; cbn; auto). destruct (in_dec dec x l); [reflexivity|]. rewrite Z0 by (cbn; auto). lia.
Qed.

(* ---- the order ---- *)
Lemma hlt n a b : is_part n a -> is_part n b -> exists v, ip_lt a b = Ret v /\ (v = true <-> lex_greater a b).
Proof. apply ip_lt_ok. Qed.
Lemma htot n a b : is_part n a -> is_part n b -> lex_greater a b \/ a = b \/ lex_greater b a.
Proof. intros A B. apply lex_total; eauto. rewrite (is_part_sum n a A), (is_part_sum n b B). auto. Qed.

Section Maps.
  Context {V : Type} (n : Z).
  Definition pvalid (m : list (list Z * V)) := mvalid (is_part n) lex_greater m.
  Lemma pfind_ok (m : list (list Z * V)) k : pvalid m -> is_part n k -> sm_find ip_lt m k = Ret (aget pdec m k).
  Proof. apply (find_ok ip_lt (is_part n) lex_greater pdec (hlt n) lex_irrefl lex_trans (htot n)). Qed.
  Lemma pput_ok (m : list (list Z * V)) k v : pvalid m -> is_part n k -> exists m', sm_put ip_lt m k v = Ret m' /\ pvalid m' /\ (forall x, In x (map fst m') <-> x = k \/ In x (map fst m)) /\ forall x, aget pdec m' x = if pdec k x then Some v else aget pdec m x.
  Proof. apply (put_ok ip_lt (is_part n) lex_greater pdec (hlt n) lex_irrefl lex_trans (htot n)). Qed.
  Lemma pref_ok (m : list (list Z * V)) k d : pvalid m -> is_part n k -> exists m', sm_ref ip_lt m k d = Ret (match aget pdec m k with Some v => v | None => d end, m') /\ pvalid m' /\ (forall x, In x (map fst m') <-> x = k \/ In x (map fst m)) /\
    (forall x, aget pdec m' x = if pdec k x then Some (match aget pdec m k with Some v => v | None => d end) else aget pdec m x) /\ (In k (map fst m) -> m' = m).
  Proof. apply (ref_ok ip_lt (is_part n) lex_greater pdec (hlt n) lex_irrefl lex_trans (htot n)). Qed.
  Lemma pext (m m' : list (list Z * V)) : pvalid m -> pvalid m' -> (forall k, aget pdec m k = aget pdec m' k) -> m = m'.
  Proof. apply (map_ext_valid (is_part n) lex_greater pdec lex_irrefl lex_trans). Qed.
  Lemma pvalid_nil : pvalid []. Proof. split; constructor. Qed.
End Maps.

Lemma mult_aget t l : mult t l = match aget pdec t l with Some m => m | None => 0 end.
Proof. induction t as [|(k, m) t IH]; auto. cbn. destruct (list_eq_dec Z.eq_dec k l), (pdec k l); auto; contradiction. Qed.

Lemma sorted_nodup (l : list (list Z)) : StronglySorted lex_greater l -> NoDup l.
Proof. induction 1 as [|a l H IH F]; constructor; auto. intros I. rewrite Forall_forall in F. exact (lex_irrefl a (F a I)). Qed.

Lemma type_nodup n t : type_of n t -> NoDup (map fst t).
Proof. intros (A & _). apply sorted_nodup; auto. Qed.

(* the entries for l, summed *)
Definition msum (ps : list (list Z * Z)) (l : list Z) : Z := zsum_over ps (fun p => if pdec (fst p) l then snd p else 0).
Lemma msum_cons k m ps l : msum ((k, m) :: ps) l = (if pdec k l then m else 0) + msum ps l. Proof. reflexivity. Qed.

Lemma msum_notin ps l : ~ In l (map fst ps) -> msum ps l = 0.
Proof. intros H. apply zsum_over_0. intros (k, m) Hp. cbn. destruct (pdec k l) as [->|]; auto. destruct H. apply in_map_iff. exists (l, m). auto. Qed.

Lemma msum_mult t l : NoDup (map fst t) -> msum t l = mult t l.
Proof.
  induction t as [|(k, m) t IH]; intros N; auto. cbn [map fst] in N. inversion N; subst. rewrite msum_cons. cbn [mult]. destruct (list_eq_dec Z.eq_dec k l) as [E|E], (pdec k l) as [E'|E']; try contradiction.
  - subst. rewrite msum_notin by auto. lia.
  - rewrite IH; auto.
Qed.

(* ---- the operations ---- *)
Lemma set_ok n t l m : type_of n t -> is_part n l -> exists t', ty_set t l m = Ret t' /\ type_of n t' /\ (forall x, In x (map fst t') <-> x = l \/ In x (map fst t)) /\ forall x, mult t' x = if pdec l x then m else mult t x.
Proof. intros T L. destruct (pput_ok n t l m T L) as (t' & E & T' & I & A). exists t'. split; auto. split; auto. split; auto. intros x. rewrite !mult_aget, A. destruct (pdec l x); auto. Qed.

Lemma call_ok n t l : type_of n t -> is_part n l -> exists t', ty_call t l = Ret (mult t l, t') /\ type_of n t' /\ (forall x, In x (map fst t') <-> x = l \/ In x (map fst t)) /\ (forall x, mult t' x = mult t x) /\ (In l (map fst t) -> t' = t).
Proof.
  intros T L. destruct (pref_ok n t l 0 T L) as (t' & E & T' & I & A & S). exists t'. unfold ty_call. rewrite E, mult_aget. split; auto. split; auto. split; auto. split; auto.
  intros x. rewrite !mult_aget, A. destruct (pdec l x) as [->|]; auto.
Qed.

Lemma add_ok n t l m : type_of n t -> is_part n l -> exists t', ty_add t l m = Ret t' /\ type_of n t' /\ (forall x, In x (map fst t') <-> x = l \/ In x (map fst t)) /\ forall x, mult t' x = mult t x + if pdec l x then m else 0.
Proof.
  intros T L. destruct (pref_ok n t l 0 T L) as (t1 & E & T1 & I1 & A1 & _). unfold ty_add. rewrite E. cbn [bind]. match goal with |- context [sm_put ip_lt t1 l ?v] => destruct (pput_ok n t1 l v T1 L) as (t' & E' & T' & I' & A') end.
  exists t'. split; auto. split; auto. split; [intros x; rewrite I', I1; tauto|]. intros x. rewrite !mult_aget, A', A1. destruct (pdec l x) as [->|]; [reflexivity|]. lia.
Qed.

Lemma adds_ok n ps t : type_of n t -> Forall (is_part n) (map fst ps) -> exists t', foldM (fun p t => ty_add t (fst p) (snd p)) ps t = Ret t' /\ type_of n t' /\
  (forall x, In x (map fst t') <-> In x (map fst ps) \/ In x (map fst t)) /\ forall x, mult t' x = mult t x + msum ps x.
Proof.
  revert t. induction ps as [|(k, m) ps IH]; intros t T F.
  - exists t. cbn. split; auto. split; auto. split; [tauto|]. intros x. lia.
  - cbn [map fst] in F. inversion F; subst. cbn [foldM fst snd]. destruct (add_ok n t k m T) as (t1 & E & T1 & I1 & A1); auto. rewrite E. cbn [bind]. destruct (IH t1 T1) as (t' & E' & T' & I' & A'); auto. exists t'. split; auto. split; auto. split.
    + intros x. rewrite I', I1. cbn. intuition congruence.
    + intros x. rewrite A', A1, msum_cons. lia.
Qed.

Lemma msum_scal ps c x : msum (map (fun p => (fst p, c * snd p)) ps) x = c * msum ps x.
Proof. unfold msum. rewrite zsum_over_map, <- zsum_over_scal. apply zsum_over_ext. intros (k, m) _. cbn. destruct (pdec k x); lia. Qed.

Lemma foldM_mapp {S I J} (f : I -> J) (body : J -> S -> outcome S) l s : foldM body (map f l) s = foldM (fun i => body (f i)) l s.
Proof. revert s. induction l as [|x l IH]; intros s; cbn; auto. destruct (body (f x) s); cbn; auto. Qed.

Lemma add_type_ok n t x m : type_of n t -> type_of n x -> exists t', ty_add_type t x m = Ret t' /\ type_of n t' /\ (forall l, In l (map fst t') <-> In l (map fst x) \/ In l (map fst t)) /\ forall l, mult t' l = mult t l + m * mult x l.
Proof.
  intros T X. unfold ty_add_type. destruct (adds_ok n (map (fun p => (fst p, m * snd p)) x) t T) as (t' & E & T' & I & A).
  { rewrite map_map. apply X. }
  rewrite foldM_mapp in E. exists t'. split; auto. split; auto. split.
  - intros l. rewrite I, map_map. reflexivity.
  - intros l. rewrite A, msum_scal, msum_mult; auto. eapply type_nodup; eauto.
Qed.

Lemma step_ok n o t : type_of n t -> legal_top n o -> exists t', tstep o t = Ret (tanswer o (mult t), t') /\ type_of n t' /\ (forall l, In l (map fst t') <-> In l (mentions o) \/ In l (map fst t)) /\ forall l, mult t' l = tmeaning o (mult t) l.
Proof.
  intros T L. destruct o as [l m|l m|x m|l]; cbn [tstep tanswer mentions tmeaning legal_top] in *.
  - destruct (set_ok n t l m T L) as (t' & E & T' & I & A). rewrite E. exists t'. split; auto. split; auto. split; [intros x; rewrite I; cbn; intuition congruence|]. intros x. rewrite A. unfold at_part. destruct (list_eq_dec Z.eq_dec l x), (pdec l x); auto; contradiction.
  - destruct (add_ok n t l m T L) as (t' & E & T' & I & A). rewrite E. exists t'. split; auto. split; auto. split; [intros x; rewrite I; cbn; intuition congruence|]. intros x. rewrite A. unfold at_part. destruct (list_eq_dec Z.eq_dec l x), (pdec l x); try contradiction; subst; lia.
  - destruct (add_type_ok n t x m T L) as (t' & E & T' & I & A). rewrite E. exists t'. auto.
  - destruct (call_ok n t l T L) as (t' & E & T' & I & A & _). rewrite E. exists t'. split; auto. split; auto. split; [intros x; rewrite I; cbn; intuition congruence|]. auto.
Qed.

Lemma tmeaning_ext o f g : (forall l, f l = g l) -> forall l, tmeaning o f l = tmeaning o g l.
Proof. intros H l. destruct o; cbn; unfold at_part; rewrite ?H; auto. Qed.
Lemma tanswer_ext o f g : (forall l, f l = g l) -> tanswer o f = tanswer o g.
Proof. intros H. destruct o; cbn; rewrite ?H; auto. Qed.
Lemma smeaning_ext os f g : (forall l, f l = g l) -> forall l, smeaning os f l = smeaning os g l.
Proof. revert f g. induction os as [|o os IH]; intros f g H l; cbn; auto. apply IH. intros. apply tmeaning_ext; auto. Qed.
Lemma sanswers_ext os f g : (forall l, f l = g l) -> sanswers os f = sanswers os g.
Proof. revert f g. induction os as [|o os IH]; intros f g H; cbn; auto. rewrite (tanswer_ext o f g H). f_equal. apply IH. intros. apply tmeaning_ext; auto. Qed.

Lemma run_ok n os t : type_of n t -> Forall (legal_top n) os -> exists t', trun os t = Ret (sanswers os (mult t), t') /\ type_of n t' /\ (forall l, In l (map fst t') <-> In l (flat_map mentions os) \/ In l (map fst t)) /\ forall l, mult t' l = smeaning os (mult t) l.
Proof.
  revert t. induction os as [|o os IH]; intros t T F; cbn [trun sanswers smeaning flat_map].
  - exists t. split; auto. split; auto. split; auto. cbn. tauto.
  - inversion F; subst. destruct (step_ok n o t T) as (t1 & E & T1 & I1 & A1); auto. rewrite E. cbn [bind fst snd]. destruct (IH t1 T1) as (t' & E' & T' & I' & A'); auto. rewrite E'. cbn [bind fst snd]. exists t'. split; [rewrite (sanswers_ext os _ _ A1); auto|]. split; auto. split.
    + intros l. rewrite I', I1, in_app_iff. tauto.
    + intros l. rewrite A'. apply smeaning_ext. auto.
Qed.

Lemma type_nil n : type_of n []. Proof. split; constructor. Qed.

(* C48 *)
Lemma type_history n os : Forall (legal_top n) os -> exists t, trun os [] = Ret (sanswers os (fun _ => 0), t) /\ type_of n t /\ (forall l, In l (map fst t) <-> In l (flat_map mentions os)) /\ forall l, mult t l = smeaning os (fun _ => 0) l.
Proof. intros F. destruct (run_ok n os [] (type_nil n) F) as (t & E & T & I & A). exists t. split; auto. split; auto. split; auto. intros l. rewrite I. cbn. tauto. Qed.

Lemma aget_mult t l : In l (map fst t) -> aget pdec t l = Some (mult t l).
Proof. intros H. rewrite mult_aget. apply (aget_in pdec) in H as (v & ->). auto. Qed.

Lemma type_determined n t t' : type_of n t -> type_of n t' -> (forall l, In l (map fst t) <-> In l (map fst t')) -> (forall l, mult t l = mult t' l) -> t = t'.
Proof.
  intros T T' I A. apply (pext n); auto. intros k. destruct (in_dec pdec k (map fst t)) as [H|H].
  - rewrite (aget_mult t k H), (aget_mult t' k) by (apply I; auto). rewrite A. auto.
  - rewrite !(aget_none pdec); auto; intros x Hx ->; apply H; auto. apply I; auto.
Qed.

(* two histories that mention the same partitions and mean the same leave the same type *)
Lemma order_irrelevant n os os' : Forall (legal_top n) os -> Forall (legal_top n) os' -> (forall l, In l (flat_map mentions os) <-> In l (flat_map mentions os')) ->
  (forall l, smeaning os (fun _ => 0) l = smeaning os' (fun _ => 0) l) -> exists a a' t, trun os [] = Ret (a, t) /\ trun os' [] = Ret (a', t).
Proof.
  intros F F' I A. destruct (type_history n os F) as (t & E & T & J & B). destruct (type_history n os' F') as (t' & E' & T' & J' & B'). assert (t = t') as <-; [|eauto].
  apply (type_determined n); auto; intros l; [rewrite J, J'; auto|rewrite B, B'; auto].
Qed.

(* a mixture of degrees aborts *)
Lemma type_mixed n m t l : type_of n t -> t <> [] -> is_part m l -> n <> m -> forall v, ty_call t l = Abort /\ ty_set t l v = Abort /\ ty_add t l v = Abort.
Proof.
  intros (_ & F) N L D v. destruct t as [|(k, x) t]; [contradiction|]. cbn in F. inversion F; subst. assert (ip_lt k l = Abort) as E by (apply lt_mixed_aborts; rewrite (is_part_sum n k), (is_part_sum m l); auto).
  unfold ty_call, ty_set, ty_add, sm_ref. cbn [sm_find sm_put]. rewrite E. auto.
Qed.

(* cat and the constructor from a list *)
Lemma foldM_nest {S I J} (g : I -> list J) (body : J -> S -> outcome S) l s : foldM (fun i s => foldM body (g i) s) l s = foldM body (flat_map g l) s.
Proof. revert s. induction l as [|x l IH]; intros s; cbn; auto. rewrite foldM_app. destruct (foldM body (g x) s); cbn; auto. Qed.

Lemma cat_ok n v : Forall (type_of n) v -> exists t, ty_cat v = Ret t /\ type_of n t /\ (forall l, In l (map fst t) <-> exists x, In x v /\ In l (map fst x)) /\ forall l, mult t l = zsum_over v (fun x => mult x l).
Proof.
  intros F. unfold ty_cat. rewrite (foldM_nest (fun q => q)). destruct (adds_ok n (flat_map (fun q => q) v) [] (type_nil n)) as (t & E & T & I & A).
  { apply Forall_forall. intros l Hl. apply in_map_iff in Hl as (p & <- & Hp). apply in_flat_map in Hp as (q & Hq & Hp). rewrite Forall_forall in F. destruct (F q Hq) as (_ & G). rewrite Forall_forall in G. apply G. apply in_map; auto. }
  exists t. split; auto. split; auto. split.
  - intros l. rewrite I. cbn. split.
    + intros [Hl|[]]. apply in_map_iff in Hl as (p & <- & Hp). apply in_flat_map in Hp as (q & Hq & Hp). exists q. split; auto. apply in_map; auto.
    + intros (x & Hx & Hl). left. apply in_map_iff in Hl as (p & <- & Hp). apply in_map. apply in_flat_map. eauto.
  - intros l. rewrite A. cbn [mult]. unfold msum. rewrite zsum_over_flat, Z.add_0_l. apply zsum_over_ext. intros x Hx. apply msum_mult. rewrite Forall_forall in F. eapply type_nodup; eauto.
Qed.
