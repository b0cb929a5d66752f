(* Clebsch-Gordan multiplicities and products, after any history. *)
From Coq Require Import ZArith List Bool Lia ZifyBool Permutation Reals Lra.
From Verif Require Import Model_Base Model_Sn Model_Perm Model_Part Model_Comb Model_Tab Model_Irrep Model_Class Model_Type Model_Char Model_CG.
From Verif Require Import Spec_Perm Spec_Part Spec_Tab Spec_Rep Spec_Four Spec_Type Spec_Char Spec_CG.
From Verif Require Import Proof_Base Proof_Perm Proof_Sn Proof_SnProps Proof_Part Proof_PartProps Proof_Tab Proof_TabProps Proof_Cycles Proof_Cox Proof_Yor Proof_Sum Proof_Irrep Proof_Rep Proof_Mat Proof_IrrepProps Proof_JM Proof_Conn Proof_Schur Proof_Restr Proof_UpDown Proof_Complete Proof_CombBank Proof_Map Proof_Type Proof_Rept Proof_Char Proof_Class Proof_Class2 Proof_Class3 Proof_Kron Proof_Prune Proof_CharBank.
Import Model_Char ListNotations.
Open Scope Z_scope.

(* ---- a sum over the classes is a sum over the group ---- *)
Lemma lsum_concat {A} (Ks : list (list A)) f : lsum (concat Ks) f = lsum Ks (fun K => lsum K f).
Proof. induction Ks as [|K Ks IH]; cbn [concat]; [reflexivity|]. rewrite lsum_app, lsum_cons, IH. auto. Qed.

Lemma class_sum n (F : list Z -> R) (G : list Z -> R) s : 1 <= n -> (forall mu p, is_part n mu -> cycle_type n p mu -> F p = G mu) -> (forall mu, is_part n mu -> class_size n mu = Ret (s mu)) ->
  lsum (all_perms n) F = lsum (pl n) (fun mu => G mu * IZR (s mu))%R.
Proof.
  intros Hn H Hs. assert (Forall (is_part n) (pl n)) as FP by (apply Forall_forall; intros l; apply in_pl; auto). destruct (classes_of n (pl n) FP) as (Ks & HK).
  pose proof (classes_group n (pl n) Ks Hn (NoDup_plist _) (fun l => in_pl n l Hn) HK) as LG. rewrite (lsum_Permutation _ (concat Ks)) by (apply (lists_Sn_Permutation n); auto; apply all_perms_lists; lia). rewrite lsum_concat. clear LG.
  induction HK as [|mu K ls Ks (NK & HK) HH IH]; [reflexivity|]. inversion FP; subst. rewrite !lsum_cons, IH by auto. f_equal.
  rewrite (lsum_ext _ _ (fun _ => G mu)) by (intros p Hp; apply H; auto; apply HK; auto). rewrite lsum_const. pose proof (class_size_counts n mu K ltac:(auto) Hn NK HK) as C. rewrite Hs in C by auto. injection C as ->. unfold zlen. ring.
Qed.

Definition csz (n : Z) (mu : list Z) : Z := match class_size n mu with Ret s => s | _ => 0 end.
Lemma csz_ok n mu : 1 <= n -> is_part n mu -> class_size n mu = Ret (csz n mu).
Proof. intros Hn P. unfold csz. destruct (class_size_ok n mu P Hn) as (K & _ & _ & E & _). rewrite E. auto. Qed.

Lemma kron_classes n a b c : 1 <= n -> is_part n a -> is_part n b -> is_part n c ->
  (lsum (pl n) (fun mu => cval n a mu * cval n b mu * cval n c mu * IZR (csz n mu)) / IZR (zfact n))%R = kron n a b c.
Proof.
  intros Hn Pa Pb Pc. unfold kron. f_equal. symmetry. apply (class_sum n _ (fun mu => cval n a mu * cval n b mu * cval n c mu)%R); auto; [|intros mu; apply csz_ok; auto].
  intros mu p Pm T. rewrite !(chi_type n _ mu p) by auto. auto.
Qed.

Lemma Int_part_IZR z : Int_part (IZR z) = z.
Proof. unfold Int_part. rewrite <- (tech_up (IZR z) (z + 1)); [lia| |]; rewrite plus_IZR; lra. Qed.
Lemma rtrunc_nat k : rtrunc (INR k) = Z.of_nat k.
Proof. unfold rtrunc. destruct (Rle_dec 0 (INR k)) as [|N]; [|destruct N; apply pos_INR]. rewrite INR_IZR_INZ. apply Int_part_IZR. Qed.

(* ---- the caches ---- *)
Definition co_ok (e : list Z * list Z * list Z * Z) : Prop := let '(x, y, z, v) := e in exists n, 1 <= n /\ is_part n x /\ is_part n y /\ is_part n z /\ IZR v = kron n x y z.
Definition prod_type (n : Z) (x y : list Z) (t : list (list Z * Z)) : Prop :=
  type_of n t /\ (forall c, is_part n c -> IZR (mult t c) = kron n x y c) /\ (forall c, In c (map fst t) <-> is_part n c /\ 0 < mult t c).
Definition ta_ok (e : list Z * list Z * list (list Z * Z)) : Prop := let '(x, y, t) := e in exists n, 1 <= n /\ is_part n x /\ is_part n y /\ prod_type n x y t.
Definition ginv (b : cgbank) : Prop := cbinv (cg_chars b) /\ Forall co_ok (cg_coeffs b) /\ Forall ta_ok (cg_taus b).

Lemma ip_eq_pos a b : ppos a -> ppos b -> ip_eq a b = true -> a = b.
Proof. intros A B. rewrite ip_eq_rows. apply ppos_ext; auto. Qed.
Lemma part_same_n n m l : is_part n l -> is_part m l -> n = m.
Proof. intros A B. rewrite <- (is_part_sum n l A). apply (is_part_sum m l B). Qed.

Lemma co_find_ok n m x y z v : Forall co_ok m -> is_part n x -> is_part n y -> is_part n z -> co_find m (x, y, z) = Some v -> IZR v = kron n x y z.
Proof.
  intros F Px Py Pz. induction F as [|(((a, b), c), w) m (k & Hk & Pa & Pb & Pc & E) F IH]; cbn [co_find]; [discriminate|]. destruct (ip_eq a x && ip_eq b y && ip_eq c z) eqn:Q; auto. intros H. injection H as <-.
  apply andb_prop in Q as (Q & Qc). apply andb_prop in Q as (Qa & Qb). apply ip_eq_pos in Qa, Qb, Qc; try (eapply is_part_ppos; eauto). subst. rewrite (part_same_n n k x); auto.
Qed.
Lemma ta_find_ok n m x y t : Forall ta_ok m -> is_part n x -> is_part n y -> ta_find m (x, y) = Some t -> prod_type n x y t.
Proof.
  intros F Px Py. induction F as [|((a, b), w) m (k & Hk & Pa & Pb & E) F IH]; cbn [ta_find]; [discriminate|]. destruct (ip_eq a x && ip_eq b y) eqn:Q; auto. intros H. injection H as <-.
  apply andb_prop in Q as (Qa & Qb). apply ip_eq_pos in Qa, Qb; try (eapply is_part_ppos; eauto). subst. rewrite (part_same_n n k x); auto.
Qed.

Lemma firstn_znth {A} (l : list A) i d : 0 <= i < zlen l -> firstn (Z.to_nat (i + 1)) l = firstn (Z.to_nat i) l ++ [znth l i d].
Proof.
  intros H. unfold zlen in H. unfold znth. replace (Z.to_nat (i + 1)) with (S (Z.to_nat i)) by lia. assert (Z.to_nat i < length l)%nat as K by lia. revert K. generalize (Z.to_nat i) as k. clear. induction l as [|x l IH]; intros [|k] K; cbn in *; try lia; auto. rewrite IH by lia. auto.
Qed.

Lemma order3_parts n x y z : is_part n x -> is_part n y -> is_part n z -> exists a b c, order3 ip_lt x y z = Ret (a, b, c) /\ Permutation [a; b; c] [x; y; z] /\ is_part n a /\ is_part n b /\ is_part n c.
Proof.
  intros Px Py Pz. destruct (order3_sorted ip_lt (is_part n) lex_greater x y z (hlt n) lex_irrefl lex_trans (htot n) Px Py Pz) as (a & b & c & E & P & _). exists a, b, c. split; auto. split; auto.
  assert (forall w, In w [a; b; c] -> is_part n w) as Q. { intros w Hw. apply (Permutation_in _ P) in Hw. destruct Hw as [<-|[<-|[<-|[]]]]; auto. } repeat split; apply Q; cbn; auto.
Qed.

Lemma cg_coeff_ok b n x y z : ginv b -> 1 <= n -> is_part n x -> is_part n y -> is_part n z -> exists v b', cg_coeff b x y z = Ret (v, b') /\ ginv b' /\ IZR v = kron n x y z /\ cg_taus b' = cg_taus b.
Proof.
  intros (I1 & I2 & I3) Hn Px Py Pz. unfold cg_coeff. destruct (order3_parts n x y z Px Py Pz) as (a & b0 & c & E & Pm & Pa & Pb & Pc). rewrite E. cbn [bind]. pose proof (kron_perm n a b0 c x y z Pm) as EK.
  destruct (co_find (cg_coeffs b) (a, b0, c)) as [v|] eqn:Q. { exists v, b. split; auto. split; [split; auto|]. rewrite <- EK. split; auto. apply (co_find_ok n (cg_coeffs b)); auto. }
  rewrite !ip_getn_zsum, (is_part_sum n x Px), (is_part_sum n y Py), (is_part_sum n z Pz), Z.eqb_refl. cbn [assert_ bind].
  destruct (cb_get_ok (cg_chars b) n x Hn I1 Px) as (c1 & E1 & C1 & _). rewrite E1. cbn [bind]. destruct (cb_get_ok c1 n y Hn C1 Py) as (c2 & E2 & C2 & _). rewrite E2. cbn [bind]. destruct (cb_get_ok c2 n z Hn C2 Pz) as (c3 & E3 & C3 & _). rewrite E3. cbn [bind].
  assert (zlen (cf_v (chr n x)) = zlen (pl n)) as LN by (cbn [chr cf_v]; apply zlen_map). rewrite LN. pose proof (zlen_nonneg (pl n)) as Z0. set (g := fun mu => (cval n x mu * cval n y mu * cval n z mu * IZR (csz n mu))%R).
  match goal with |- context [zfor 0 ?N ?body 0%R] => destruct (zfor_inv (fun i t => t = lsum (firstn (Z.to_nat i) (pl n)) g) 0 N body 0%R) as (t & Et & Vt); [lia|reflexivity| |] end.
  - intros i t Hi ->. rewrite !cf_at_chr by auto. cbn [bind]. rewrite cclass_ok by auto. cbn [bind]. rewrite csz_ok by (auto; apply znth_pl; auto). cbn [bind]. eexists. split; [reflexivity|]. rewrite (firstn_znth _ i []) by auto. rewrite lsum_app, lsum_cons. unfold g at 3. change (lsum [] g) with 0%R. ring.
  - rewrite Et. cbn [bind]. replace (firstn (Z.to_nat (zlen (pl n))) (pl n)) with (pl n) in Vt by (unfold zlen; rewrite Nat2Z.id, firstn_all; auto).
    assert (t / IZR (zfact n) = kron n x y z)%R as -> by (rewrite Vt; apply kron_classes; auto). destruct (kron_nat n Hn x y z Px Py Pz) as (k & Ek). rewrite Ek, rtrunc_nat. eexists _, _. split; [reflexivity|]. split; [|split; [symmetry; apply INR_IZR_INZ|auto]].
    split; [auto|]. split; [|auto]. cbn [cg_coeffs]. apply Forall_app. split; auto. constructor; [|constructor]. exists n. split; auto. split; auto. split; auto. split; auto. rewrite <- INR_IZR_INZ, EK. auto.
Qed.

Lemma kron_int n x y z : 1 <= n -> is_part n x -> is_part n y -> is_part n z -> exists v, IZR v = kron n x y z /\ 0 <= v.
Proof. intros Hn Px Py Pz. destruct (kron_nat n Hn x y z Px Py Pz) as (k & Ek). exists (Z.of_nat k). split; [rewrite Ek; symmetry; apply INR_IZR_INZ|lia]. Qed.

Lemma ip_get0 n l : 1 <= n -> is_part n l -> ip_get l 0 = Ret (row l 0).
Proof. intros Hn P. unfold ip_get. pose proof (part_len_pos n l P Hn). rewrite (rd_ok _ _ 0) by lia. reflexivity. Qed.

Lemma cg_product_ok b n x y : ginv b -> 1 <= n -> is_part n x -> is_part n y -> exists t b', cg_product b x y = Ret (t, b') /\ ginv b' /\ prod_type n x y t.
Proof.
  intros I Hn Px Py. unfold cg_product. destruct (ta_find (cg_taus b) (x, y)) as [t|] eqn:Q. { exists t, b. split; auto. split; auto. apply (ta_find_ok n (cg_taus b)); auto. apply I. }
  rewrite ip_getn_zsum, (is_part_sum n x Px), !(ip_get0 n) by auto. cbn [bind]. rewrite integer_partitions_ok by auto. cbn [bind].
  match goal with |- context [foldM ?f (pl n) ?s] => set (body := f) end. assert (forall suf pre t b, ginv b -> NoDup (pre ++ suf) -> Forall (is_part n) (pre ++ suf) -> type_of n t -> (forall c, In c pre -> IZR (mult t c) = kron n x y c) -> (forall c, In c (map fst t) <-> In c pre /\ 0 < mult t c) ->
    exists t' b', foldM body suf (t, b) = Ret (t', b') /\ ginv b' /\ type_of n t' /\ (forall c, In c (pre ++ suf) -> IZR (mult t' c) = kron n x y c) /\ (forall c, In c (map fst t') <-> In c (pre ++ suf) /\ 0 < mult t' c)) as K.
  { clear b I Q. induction suf as [|p suf IH]; intros pre t b I N F T M S; cbn [foldM]; [rewrite app_nil_r in *; exists t, b; auto|].
    assert (is_part n p) as Pp by (rewrite Forall_forall in F; apply F, in_or_app; right; left; auto). assert (~ In p pre) as Np by (apply NoDup_remove_2 in N; intros H; apply N, in_or_app; auto). assert (~ In p (map fst t)) as Nt by (intros H; apply S in H; tauto).
    unfold body at 1. rewrite (ip_get0 n p) by auto. cbn [bind]. replace (pre ++ p :: suf) with ((pre ++ [p]) ++ suf) in * by (rewrite <- app_assoc; auto).
    assert (mult t p = 0) as M0. { rewrite <- (msum_mult t) by (eapply type_nodup; eauto). apply msum_notin; auto. }
    assert (forall b', ginv b' -> kron n x y p = 0%R -> exists t' b'', foldM body suf (t, b') = Ret (t', b'') /\ ginv b'' /\ type_of n t' /\ (forall c, In c ((pre ++ [p]) ++ suf) -> IZR (mult t' c) = kron n x y c) /\ (forall c, In c (map fst t') <-> In c ((pre ++ [p]) ++ suf) /\ 0 < mult t' c)) as Zr.
    { intros b' I' K0. apply IH; auto. - intros c Hc. apply in_app_or in Hc as [Hc|[<-|[]]]; auto. rewrite M0, K0. auto. - intros c. rewrite S, in_app_iff. split; [tauto|]. intros ([Hc|[<-|[]]] & H); [auto|lia]. }
    destruct (Z.leb_spec (n - (2 * n - row x 0 - row y 0)) (row p 0)) as [Hl|Hl].
    - destruct (cg_coeff_ok b n x y p I Hn Px Py Pp) as (v & b' & E & I' & V & _). rewrite E. cbn [bind]. destruct (kron_int n x y p Hn Px Py Pp) as (v' & V' & P'). assert (v = v') as <- by (apply eq_IZR; lra). destruct (Z.ltb_spec 0 v) as [Hv|Hv].
      + destruct (add_ok n t p v T Pp) as (t1 & E1 & T1 & I1 & M1). rewrite E1. cbn [bind]. apply (IH (pre ++ [p])); auto.
        * intros c Hc. rewrite M1. apply in_app_or in Hc as [Hc|[<-|[]]]; [|destruct (pdec p p); [rewrite M0; auto|contradiction]]. destruct (pdec p c) as [<-|]; [contradiction|]. rewrite Z.add_0_r. auto.
        * intros c. rewrite I1, M1, S, in_app_iff. destruct (pdec p c) as [<-|Ne]. -- split; [intros _; split; [right; left; auto|lia]|auto]. -- rewrite Z.add_0_r. split; [intros [->|]; [contradiction|tauto]|]. intros ([Hc|[<-|[]]] & H); [auto|contradiction].
      + apply Zr; auto. rewrite <- V. f_equal. lia.
    - apply Zr; auto. apply (kron_pruned n Hn); auto. lia. }
  destruct (K (pl n) [] [] b I (NoDup_plist _)) as (t & b' & E & I' & T & M & S).
  - apply Forall_forall. intros l. apply in_pl; auto.
  - apply type_nil.
  - intros c [].
  - intros c. cbn. tauto.
  - rewrite E. cbn [bind]. assert (prod_type n x y t) as PT. { split; auto. split; [intros c Hc; apply M, in_pl; auto|]. intros c. rewrite S. cbn [app]. rewrite in_pl by auto. tauto. }
    eexists _, _. split; [reflexivity|]. split; auto. destruct I' as (A1 & A2 & A3). split; auto. split; auto. cbn [cg_taus]. apply Forall_app. split; auto. constructor; [|constructor]. exists n. auto.
Qed.

(* ---- products of types ---- *)
Definition kz (n : Z) (x y c : list Z) : Z := Int_part (kron n x y c).
Lemma kz_ok n x y c : 1 <= n -> is_part n x -> is_part n y -> is_part n c -> IZR (kz n x y c) = kron n x y c /\ 0 <= kz n x y c.
Proof. intros Hn Px Py Pc. unfold kz. destruct (kron_int n x y c Hn Px Py Pc) as (v & <- & H). rewrite Int_part_IZR. auto. Qed.

Lemma prod_type_kz n x y t c : 1 <= n -> is_part n x -> is_part n y -> prod_type n x y t -> is_part n c -> mult t c = kz n x y c.
Proof. intros Hn Px Py (_ & M & _) Pc. apply eq_IZR. rewrite M by auto. symmetry. apply kz_ok; auto. Qed.

Lemma foldM_prod {S I J} (g : I -> J -> S -> outcome S) t1 t2 s : foldM (fun p st => foldM (fun q st => g p q st) t2 st) t1 s = foldM (fun pq => g (fst pq) (snd pq)) (list_prod t1 t2) s.
Proof.
  revert s. induction t1 as [|p t1 IH]; intros s; cbn [list_prod]; auto. rewrite foldM_app, foldM_mapp. cbn [foldM fst snd]. destruct (foldM (fun q st => g p q st) t2 s) eqn:E; cbn [bind]; auto; try (rewrite E; auto). 
Qed.

Definition tprod (n : Z) (t1 t2 R : list (list Z * Z)) : Prop :=
  type_of n R /\ (forall c, is_part n c -> mult R c = zsum_over t1 (fun p => zsum_over t2 (fun q => snd p * snd q * kz n (fst p) (fst q) c))) /\
  (forall c, In c (map fst R) <-> is_part n c /\ exists p q, In p t1 /\ In q t2 /\ 0 < kz n (fst p) (fst q) c).

Lemma zsum_list_prod {A B} (t1 : list A) (t2 : list B) f : zsum_over (list_prod t1 t2) (fun pq => f (fst pq) (snd pq)) = zsum_over t1 (fun p => zsum_over t2 (fun q => f p q)).
Proof. induction t1 as [|p t1 IH]; auto. cbn [list_prod]. rewrite zsum_over_app, zsum_over_map, zsum_over_cons, IH. auto. Qed.

Lemma cg_types_ok b n t1 t2 : ginv b -> 1 <= n -> type_of n t1 -> type_of n t2 -> exists R b', cg_product_types b t1 t2 = Ret (R, b') /\ ginv b' /\ tprod n t1 t2 R.
Proof.
  intros I Hn (_ & F1) (_ & F2). unfold cg_product_types. rewrite (foldM_prod (fun p q st => let '(R, b) := st in r <- cg_product b (fst p) (fst q) ;; (let '(t, b) := r in R <- ty_add_type R t (snd p * snd q) ;; Ret (R, b)))).
  assert (forall pq, In pq (list_prod t1 t2) -> is_part n (fst (fst pq)) /\ is_part n (fst (snd pq))) as FP. { intros (p, q) H. apply in_prod_iff in H as (H1 & H2). rewrite Forall_forall in F1, F2. cbn. split; [apply F1|apply F2]; apply in_map; auto. }
  set (f := fun c (pq : list Z * Z * (list Z * Z)) => snd (fst pq) * snd (snd pq) * kz n (fst (fst pq)) (fst (snd pq)) c).
  match goal with |- context [foldM ?f _ _] => set (body := f) end.
  assert (forall X R b, ginv b -> (forall pq, In pq X -> is_part n (fst (fst pq)) /\ is_part n (fst (snd pq))) -> type_of n R -> exists R' b', foldM body X (R, b) = Ret (R', b') /\ ginv b' /\ type_of n R' /\
     (forall c, is_part n c -> mult R' c = mult R c + zsum_over X (f c)) /\ (forall c, In c (map fst R') <-> In c (map fst R) \/ (is_part n c /\ exists pq, In pq X /\ 0 < kz n (fst (fst pq)) (fst (snd pq)) c))) as K.
  { clear b I FP. induction X as [|pq X IH]; intros R b I FP T; cbn [foldM]. - exists R, b. split; auto. split; auto. split; auto. split; [intros c _; rewrite zsum_over_nil; lia|]. intros c. split; [auto|intros [|(_ & ? & [] & _)]; auto].
    - destruct (FP pq (or_introl eq_refl)) as (Pp & Pq). unfold body at 1. destruct (cg_product_ok b n _ _ I Hn Pp Pq) as (t & b1 & E & I1 & PT). rewrite E. cbn [bind]. destruct (add_type_ok n R t (snd (fst pq) * snd (snd pq)) T (proj1 PT)) as (R1 & E1 & T1 & In1 & M1). rewrite E1. cbn [bind].
      destruct (IH R1 b1 I1 (fun x Hx => FP x (or_intror Hx)) T1) as (R' & b' & E' & I' & T' & M' & In'). exists R', b'. split; auto. split; auto. split; auto. split.
      + intros c Pc. rewrite M', M1, zsum_over_cons by auto. rewrite (prod_type_kz n _ _ t c Hn Pp Pq PT Pc). unfold f at 2. lia.
      + intros c. rewrite In', In1. pose proof PT as (_ & _ & S). rewrite S. split.
        * intros [[(Pc & H)|H]|(Pc & x & Hx & H)]; auto. -- right. split; auto. exists pq. split; [left; auto|]. rewrite <- (prod_type_kz n _ _ t c Hn Pp Pq PT Pc); auto. -- right. split; auto. exists x. split; auto. right; auto.
        * intros [H|(Pc & x & [<-|Hx] & H)]; auto. -- left; left. split; auto. rewrite (prod_type_kz n _ _ t c Hn Pp Pq PT Pc); auto. -- right. split; auto. exists x. auto. }
  destruct (K (list_prod t1 t2) [] b I FP (type_nil n)) as (R & b' & E & I' & T & M & S). rewrite E. exists R, b'. split; auto. split; auto. split; auto. split.
  - intros c Pc. rewrite M by auto. cbn [mult]. unfold f. rewrite (zsum_list_prod t1 t2 (fun p q => snd p * snd q * kz n (fst p) (fst q) c)). lia.
  - intros c. rewrite S. cbn. split; [intros [[]|(Pc & (p, q) & H & H')]; split; auto; apply in_prod_iff in H; exists p, q; tauto|]. intros (Pc & p & q & H1 & H2 & H'). right. split; auto. exists (p, q). rewrite in_prod_iff. auto.
Qed.

(* ---- histories ---- *)
Definition cg_ans (q : cgq) (a : cga) : Prop :=
  match q, a with
  | GCoeff x y z, ACoeff v => forall n, 1 <= n -> is_part n x -> is_part n y -> is_part n z -> v = kz n x y z
  | GProd x y, AType t => forall n, 1 <= n -> is_part n x -> is_part n y -> prod_type n x y t
  | GTypes s t, AType R => forall n, 1 <= n -> type_of n s -> type_of n t -> tprod n s t R
  | _, _ => False
  end.

Lemma type_same_n n m t : type_of n t -> type_of m t -> t <> [] -> n = m.
Proof. intros (_ & A) (_ & B) N. destruct t as [|p t]; [contradiction|]. inversion A; subst. inversion B; subst. eapply part_same_n; eauto. Qed.

Lemma cgstep_ok q b : ginv b -> legal_cgq q -> exists a b', cgstep q b = Ret (a, b') /\ ginv b' /\ cg_ans q a.
Proof.
  intros I L. destruct q as [x y z|x y|s t]; cbn [legal_cgq cgstep cg_ans] in *.
  - destruct L as (n & Hn & Px & Py & Pz). destruct (cg_coeff_ok b n x y z I Hn Px Py Pz) as (v & b' & E & I' & V & _). rewrite E. cbn [bind fst snd]. eexists _, _. split; [reflexivity|]. split; auto. intros m Hm Qx Qy Qz. rewrite (part_same_n m n x) by auto. apply eq_IZR. rewrite V. symmetry. apply kz_ok; auto.
  - destruct L as (n & Hn & Px & Py). destruct (cg_product_ok b n x y I Hn Px Py) as (t & b' & E & I' & PT). rewrite E. cbn [bind fst snd]. eexists _, _. split; [reflexivity|]. split; auto. intros m Hm Qx Qy. rewrite (part_same_n m n x) by auto. auto.
  - destruct L as (n & Hn & Ps & Pt). destruct (cg_types_ok b n s t I Hn Ps Pt) as (R & b' & E & I' & TP). rewrite E. cbn [bind fst snd]. eexists _, _. split; [reflexivity|]. split; auto. intros m Hm Qs Qt.
    destruct s as [|p s]; [|rewrite (type_same_n m n (p :: s)) by (auto; discriminate); auto]. destruct TP as (_ & _ & S). destruct R as [|(c, w) R]; [|exfalso; destruct (proj1 (S c) (or_introl eq_refl)) as (_ & p & q & [] & _)].
    split; [apply type_nil|]. split; [intros; reflexivity|]. intros c. split; [intros []|intros (_ & p & q & [] & _)].
Qed.

Lemma ginv0 : ginv cg0. Proof. split; [apply cbinv0|]. split; constructor. Qed.

Lemma cgrun_ok qs : forall b, ginv b -> Forall legal_cgq qs -> exists aa b', cgrun qs b = Ret (aa, b') /\ ginv b' /\ Forall2 cg_ans qs aa.
Proof.
  induction qs as [|q qs IH]; intros b I L; cbn [cgrun]; [exists [], b; auto|]. inversion L; subst. destruct (cgstep_ok q b I H1) as (a & b1 & E & I1 & A). rewrite E. cbn [bind fst snd]. destruct (IH b1 I1 H2) as (aa & b2 & E2 & I2 & A2). rewrite E2. cbn [bind fst snd]. eexists _, _. split; [reflexivity|]. split; auto.
Qed.

Lemma cgrun_last qs q : Forall legal_cgq qs -> legal_cgq q -> exists aa a b, cgrun (qs ++ [q]) cg0 = Ret (aa ++ [a], b) /\ cg_ans q a.
Proof.
  intros L Lq. destruct (cgrun_ok (qs ++ [q]) cg0 ginv0) as (aa & b & E & _ & A); [apply Forall_app; auto|]. apply Forall2_app_inv_l in A as (a1 & a2 & A1 & A2 & ->). inversion A2 as [|? a ? ? Ha Hn]; subst. inversion Hn; subst. exists a1, a, b. auto.
Qed.

(* ---- the statements ---- *)
Lemma irrep_trace_chi n l p : 1 <= n -> is_part n l -> is_perm n p -> forall x, irrep_trace l p x <-> x = chi n l p.
Proof.
  intros Hn P Hp x. destruct (mkirr_ok n l P Hn) as (E & G). destruct (matrix_ok n l _ G p Hp) as (M & EM & _ & _ & V). pose proof (trace_ext _ _ _ V) as T. split.
  - intros (o & M' & Eo & EM' & ->). rewrite E in Eo. injection Eo as <-. rewrite EM in EM'. injection EM' as <-. exact T.
  - intros ->. exists (mkirr n l), M. auto.
Qed.

Lemma cg_mult_kz n a b c m : 1 <= n -> is_part n a -> is_part n b -> is_part n c -> (cg_mult n a b c m <-> m = kz n a b c).
Proof.
  intros Hn Pa Pb Pc. destruct (kz_ok n a b c Hn Pa Pb Pc) as (E & P0). assert (INR (fact (Z.to_nat n)) = IZR (zfact n)) as EF by (symmetry; apply zfact_fact; lia). pose proof (fact_pos n) as FP.
  assert (forall L ta tb tc, lists_Sn n L -> (forall p, In p L -> irrep_trace a p (ta p)) -> (forall p, In p L -> irrep_trace b p (tb p)) -> (forall p, In p L -> irrep_trace c p (tc p)) -> (sum_over L (fun p => ta p * tb p * tc p) = kron n a b c * IZR (zfact n))%R) as K.
  { intros L ta tb tc HL Ha Hb Hc. unfold kron. change (@sum_over) with (@lsum). rewrite (lsum_Permutation L (all_perms n)) by (apply (lists_Sn_Permutation n); auto; apply all_perms_lists; lia). rewrite (lsum_ext _ _ (fun p => chi n a p * chi n b p * chi n c p)%R); [field; lra|]. intros p Hp.
    assert (is_perm n p) as Pp by (apply (all_perms_lists n ltac:(lia)); auto). assert (In p L) as Ip by (apply HL; auto). rewrite (proj1 (irrep_trace_chi n a p Hn Pa Pp _) (Ha p Ip)), (proj1 (irrep_trace_chi n b p Hn Pb Pp _) (Hb p Ip)), (proj1 (irrep_trace_chi n c p Hn Pc Pp _) (Hc p Ip)). auto. }
  split.
  - intros (_ & H). pose proof (all_perms_lists n ltac:(lia)) as HL. apply eq_IZR. rewrite E. apply (Rmult_eq_reg_r (IZR (zfact n))); [|lra]. rewrite <- EF at 1. rewrite (H (all_perms n) (chi n a) (chi n b) (chi n c) HL), (K (all_perms n) (chi n a) (chi n b) (chi n c) HL); auto; intros p Hp; apply HL in Hp; apply (irrep_trace_chi n); auto.
  - intros ->. split; auto. intros L ta tb tc HL Ha Hb Hc. rewrite (K L ta tb tc HL Ha Hb Hc), E, EF. auto.
Qed.

(* a coefficient: whatever was asked before, in whatever order *)
Lemma coeff_statement n a b c : 1 <= n -> is_part n a -> is_part n b -> is_part n c -> exists m, cg_mult n a b c m /\
  forall qs a' b' c', Forall legal_cgq qs -> Permutation [a'; b'; c'] [a; b; c] -> exists aa s, cgrun (qs ++ [GCoeff a' b' c']) cg0 = Ret (aa ++ [ACoeff m], s).
Proof.
  intros Hn Pa Pb Pc. exists (kz n a b c). split; [apply cg_mult_kz; auto|]. intros qs a' b' c' L Pm.
  assert (forall w, In w [a'; b'; c'] -> is_part n w) as Q. { intros w Hw. apply (Permutation_in _ Pm) in Hw. destruct Hw as [<-|[<-|[<-|[]]]]; auto. }
  assert (is_part n a') as Pa' by (apply Q; cbn; auto). assert (is_part n b') as Pb' by (apply Q; cbn; auto). assert (is_part n c') as Pc' by (apply Q; cbn; auto).
  destruct (cgrun_last qs (GCoeff a' b' c') L) as (aa & x & s & E & A); [exists n; auto|]. destruct x as [v|t]; cbn [cg_ans] in A; [|contradiction]. rewrite (A n Hn Pa' Pb' Pc') in E. exists aa, s. rewrite E. unfold kz. rewrite (kron_perm n a' b' c' a b c Pm). auto.
Qed.

Lemma prod_type_unique n x y t t' : prod_type n x y t -> prod_type n x y t' -> t = t'.
Proof.
  intros (T & M & S) (T' & M' & S'). assert (forall c, is_part n c -> mult t c = mult t' c) as E by (intros c Pc; apply eq_IZR; rewrite M, M'; auto). apply (type_determined n); auto.
  - intros c. rewrite S, S'. split; intros (Pc & H); split; auto; specialize (E c Pc); lia.
  - intros c. destruct (in_dec pdec c (map fst t)) as [H|H]; [apply S in H as (Pc & _); auto|]. assert (~ In c (map fst t')) as H'. { intros H'. apply H. apply S. apply S' in H' as (Pc & H0). split; auto. rewrite E; auto. }
    rewrite <- !msum_mult by (eapply type_nodup; eauto). rewrite !msum_notin; auto.
Qed.

Lemma prod_statement n a b : 1 <= n -> is_part n a -> is_part n b -> exists t, type_of n t /\ (forall c, is_part n c -> cg_mult n a b c (mult t c)) /\ (forall c, In c (map fst t) <-> is_part n c /\ 0 < mult t c) /\
  forall qs, Forall legal_cgq qs -> exists aa s, cgrun (qs ++ [GProd a b]) cg0 = Ret (aa ++ [AType t], s).
Proof.
  intros Hn Pa Pb. assert (legal_cgq (GProd a b)) as Lq by (exists n; auto). destruct (cgrun_last [] (GProd a b) (Forall_nil _) Lq) as (aa & x & s & E & A). destruct x as [v|t]; cbn [cg_ans] in A; [contradiction|]. specialize (A n Hn Pa Pb). exists t. split; [apply A|]. split; [|split; [apply A|]].
  - intros c Pc. apply cg_mult_kz; auto. apply prod_type_kz; auto.
  - intros qs L. destruct (cgrun_last qs (GProd a b) L Lq) as (aa' & x & s' & E' & A'). destruct x as [v|t']; cbn [cg_ans] in A'; [contradiction|]. specialize (A' n Hn Pa Pb). rewrite (prod_type_unique n a b t t' A A'). exists aa', s'. auto.
Qed.

Lemma tprod_unique n s t R R' : tprod n s t R -> tprod n s t R' -> R = R'.
Proof.
  intros (T & M & S) (T' & M' & S'). apply (type_determined n); auto. - intros c. rewrite S, S'. tauto.
  - intros c. destruct (in_dec pdec c (map fst R)) as [H|H]; [apply S in H as (Pc & _); rewrite M, M'; auto|]. assert (~ In c (map fst R')) as H' by (intros H'; apply H, S, S'; auto). rewrite <- !msum_mult by (eapply type_nodup; eauto). rewrite !msum_notin; auto.
Qed.

Lemma types_statement n s t : 1 <= n -> type_of n s -> type_of n t -> exists R, type_of n R /\
  (forall c m, is_part n c -> (forall p q, In p s -> In q t -> cg_mult n (fst p) (fst q) c (m p q)) -> mult R c = zsum_over s (fun p => zsum_over t (fun q => snd p * snd q * m p q))) /\
  (forall c, In c (map fst R) <-> is_part n c /\ exists p q m, In p s /\ In q t /\ cg_mult n (fst p) (fst q) c m /\ 0 < m) /\
  forall qs, Forall legal_cgq qs -> exists aa st, cgrun (qs ++ [GTypes s t]) cg0 = Ret (aa ++ [AType R], st).
Proof.
  intros Hn Ts Tt. assert (legal_cgq (GTypes s t)) as Lq by (exists n; auto). destruct (cgrun_last [] (GTypes s t) (Forall_nil _) Lq) as (aa & x & st & E & A). destruct x as [v|R]; cbn [cg_ans] in A; [contradiction|]. specialize (A n Hn Ts Tt). exists R.
  assert (forall p, In p s -> is_part n (fst p)) as Fs by (intros p Hp; destruct Ts as (_ & F); rewrite Forall_forall in F; apply F, in_map; auto). assert (forall p, In p t -> is_part n (fst p)) as Ft by (intros p Hp; destruct Tt as (_ & F); rewrite Forall_forall in F; apply F, in_map; auto). split; [apply A|]. split; [|split].
  - intros c m Pc Hm. rewrite (proj1 (proj2 A)) by auto. apply zsum_over_ext. intros p Hp. apply zsum_over_ext. intros q Hq. f_equal. symmetry. apply (cg_mult_kz n); auto.
  - intros c. rewrite (proj2 (proj2 A)). split; intros (Pc & H); split; auto. + destruct H as (p & q & Hp & Hq & H). exists p, q, (kz n (fst p) (fst q) c). split; auto. split; auto. split; auto. apply cg_mult_kz; auto. + destruct H as (p & q & m & Hp & Hq & Hm & H). exists p, q. split; auto. split; auto. apply cg_mult_kz in Hm; auto. lia.
  - intros qs L. destruct (cgrun_last qs (GTypes s t) L Lq) as (aa' & x & s' & E' & A'). destruct x as [v|R']; cbn [cg_ans] in A'; [contradiction|]. specialize (A' n Hn Ts Tt). rewrite (tprod_unique n s t R R' A A'). exists aa', s'. auto.
Qed.

(* ---- characters of types ---- *)
Definition ttr (n : Z) (t : list (list Z * Z)) (p : list Z) : R := lsum t (fun q => IZR (snd q) * chi n (fst q) p)%R.
Lemma type_trace_ttr n t p x : 1 <= n -> type_of n t -> is_perm n p -> (type_trace t p x <-> x = ttr n t p).
Proof.
  intros Hn (_ & F) Hp. assert (forall q, In q t -> is_part n (fst q)) as Ft by (intros q Hq; rewrite Forall_forall in F; apply F, in_map; auto). clear F. unfold type_trace, ttr. change (@sum_over) with (@lsum). revert x Ft. induction t as [|q t IH]; intros x Ft.
  - split. + intros (xs & A & ->). inversion A. reflexivity. + intros ->. exists []. split; auto.
  - assert (is_part n (fst q)) as Pq by (apply Ft; left; auto). split.
    + intros (xs & A & ->). inversion A as [|? y ? ys Ay Ays]; subst. cbn [combine]. rewrite !lsum_cons. cbn [fst snd]. apply (irrep_trace_chi n) in Ay; auto. subst y. f_equal. apply IH; [intros; apply Ft; right; auto|]. exists ys. auto.
    + intros ->. destruct (proj2 (IH (lsum t (fun q => IZR (snd q) * chi n (fst q) p))%R (fun z Hz => Ft z (or_intror Hz))) eq_refl) as (ys & A & E). exists (chi n (fst q) p :: ys). split; [constructor; auto; apply (irrep_trace_chi n); auto|]. cbn [combine]. rewrite !lsum_cons. cbn [fst snd]. rewrite E. auto.
Qed.

Lemma lsum_list_sub {A} (dec : forall x y : A, {x = y} + {x <> y}) (l X : list A) f : NoDup l -> NoDup X -> (forall x, In x l -> In x X) -> (forall x, In x X -> ~ In x l -> f x = 0%R) -> lsum X f = lsum l f.
Proof.
  intros N M S Z0. rewrite (lsum_Permutation l (filter (fun x => if in_dec dec x l then true else false) X)).
  - clear N M S. induction X as [|x X IH]; auto. cbn [filter]. rewrite lsum_cons, IH by (intros; apply Z0; auto; right; auto). destruct (in_dec dec x l); [rewrite lsum_cons; auto|]. rewrite Z0; [ring|left; auto|auto].
  - apply NoDup_Permutation; auto using NoDup_filter. intros x. rewrite filter_In. destruct (in_dec dec x l); split; try tauto; try (intros []; discriminate); auto.
Qed.

Lemma ttr_all n t p : 1 <= n -> type_of n t -> ttr n t p = lsum (pl n) (fun c => IZR (mult t c) * chi n c p)%R.
Proof.
  intros Hn T. rewrite (lsum_list_sub pdec (map fst t) (pl n)).
  - unfold ttr. rewrite lsum_map. apply lsum_ext. intros (c, m) Hc. cbn [fst snd]. do 2 f_equal. pose proof (type_nodup n t T) as N. clear T. induction t as [|(k, v) t IH]; [destruct Hc|]. cbn [mult map fst] in *. inversion N; subst. destruct (list_eq_dec Z.eq_dec k c) as [->|Ne]; destruct Hc as [Hc|Hc]; auto; [congruence| |congruence]. exfalso. apply H1. apply in_map_iff. exists (c, m). auto.
  - eapply type_nodup; eauto.
  - apply NoDup_plist.
  - intros c Hc. apply in_pl; auto. destruct T as (_ & F). rewrite Forall_forall in F. auto.
  - intros c _ Nc. rewrite <- msum_mult by (eapply type_nodup; eauto). rewrite msum_notin by auto. ring.
Qed.

Lemma IZR_zsum {A} (l : list A) f : IZR (zsum_over l f) = lsum l (fun x => IZR (f x)).
Proof. induction l as [|x l IH]; [reflexivity|]. rewrite zsum_over_cons, lsum_cons, plus_IZR, IH. auto. Qed.

Lemma tprod_trace n s t R p : 1 <= n -> type_of n s -> type_of n t -> tprod n s t R -> is_perm n p -> ttr n R p = (ttr n s p * ttr n t p)%R.
Proof.
  intros Hn Ts Tt (TR & M & _) Hp. assert (forall p, In p s -> is_part n (fst p)) as Fs by (intros q Hq; destruct Ts as (_ & F); rewrite Forall_forall in F; apply F, in_map; auto). assert (forall p, In p t -> is_part n (fst p)) as Ft by (intros q Hq; destruct Tt as (_ & F); rewrite Forall_forall in F; apply F, in_map; auto).
  rewrite ttr_all by auto. rewrite (lsum_ext _ _ (fun c => lsum s (fun u => lsum t (fun v => IZR (snd u) * IZR (snd v) * (kron n (fst u) (fst v) c * chi n c p)))%R)).
  - rewrite lsum_swap. unfold ttr. rewrite <- lsum_scal_r. apply lsum_ext. intros u Hu. rewrite lsum_swap, <- lsum_scal. apply lsum_ext. intros v Hv. rewrite lsum_scal, <- (kron_decompose n) by auto. ring.
  - intros c Hc. apply in_pl in Hc; auto. rewrite M by auto. rewrite IZR_zsum, <- lsum_scal_r. apply lsum_ext. intros u Hu. rewrite IZR_zsum, <- lsum_scal_r. apply lsum_ext. intros v Hv. rewrite !mult_IZR. rewrite (proj1 (kz_ok n (fst u) (fst v) c Hn ltac:(auto) ltac:(auto) ltac:(auto))). ring.
Qed.

Lemma prod_tprod n a b t : 1 <= n -> is_part n a -> is_part n b -> prod_type n a b t -> tprod n [(a, 1)] [(b, 1)] t.
Proof.
  intros Hn Pa Pb PT. pose proof PT as (T & M & S). split; auto. split.
  - intros c Pc. rewrite (prod_type_kz n a b t c Hn Pa Pb PT Pc). unfold zsum_over. cbn [map zsum fst snd]. unfold zsum. cbn [fold_right]. lia.
  - intros c. rewrite S. split; intros (Pc & H); split; auto. + exists (a, 1), (b, 1). rewrite (prod_type_kz n a b t c Hn Pa Pb PT Pc) in H. split; [left; auto|]. split; [left; auto|]. auto. + destruct H as (p & q & [<-|[]] & [<-|[]] & H). rewrite (prod_type_kz n a b t c Hn Pa Pb PT Pc). auto.
Qed.

(* the answer to a request for the product of two types, as the product of representations *)
Lemma types_trace n s t R qs aa st p x y : 1 <= n -> type_of n s -> type_of n t -> Forall legal_cgq qs -> cgrun (qs ++ [GTypes s t]) cg0 = Ret (aa ++ [AType R], st) ->
  is_perm n p -> type_trace s p x -> type_trace t p y -> type_trace R p (x * y)%R.
Proof.
  intros Hn Ts Tt L E Hp X Y. destruct (cgrun_last qs (GTypes s t) L) as (aa' & a & st' & E' & A); [exists n; auto|]. rewrite E in E'. injection E' as E1 E2. apply app_inj_tail in E1 as (_ & <-). cbn [cg_ans] in A. specialize (A n Hn Ts Tt).
  apply (type_trace_ttr n) in X, Y; auto. apply (type_trace_ttr n); auto; [apply A|]. subst. symmetry. apply tprod_trace; auto.
Qed.

Lemma prod_trace n a b t qs aa st p x y : 1 <= n -> is_part n a -> is_part n b -> Forall legal_cgq qs -> cgrun (qs ++ [GProd a b]) cg0 = Ret (aa ++ [AType t], st) ->
  is_perm n p -> irrep_trace a p x -> irrep_trace b p y -> type_trace t p (x * y)%R.
Proof.
  intros Hn Pa Pb L E Hp X Y. destruct (cgrun_last qs (GProd a b) L) as (aa' & z & st' & E' & A); [exists n; auto|]. rewrite E in E'. injection E' as E1 E2. apply app_inj_tail in E1 as (_ & <-). cbn [cg_ans] in A. specialize (A n Hn Pa Pb). pose proof (prod_tprod n a b t Hn Pa Pb A) as TP.
  assert (forall l, is_part n l -> type_of n [(l, 1)]) as T1 by (intros l Pl; split; constructor; auto; constructor).
  apply (irrep_trace_chi n) in X, Y; auto. apply (type_trace_ttr n); auto; [apply A|]. subst. rewrite (tprod_trace n [(a, 1)] [(b, 1)]) by auto. unfold ttr. rewrite !lsum_cons. cbn [fst snd]. change (lsum [] _) with 0%R. change (@lsum (list Z * Z) [] (fun q => IZR (snd q) * chi n (fst q) p)%R) with 0%R. ring.
Qed.

Lemma ttr_dim n t : 1 <= n -> type_of n t -> ttr n t (pid n) = IZR (zsum_over t (fun p => snd p * dimZ (fst p))).
Proof.
  intros Hn T. rewrite IZR_zsum. apply lsum_ext. intros q Hq. rewrite mult_IZR. f_equal. pose proof (keys_below n t q T Hq) as P. rewrite (dimZ_R n) by auto. apply chi_id; auto.
Qed.

Lemma tprod_dim n s t R D D' : 1 <= n -> type_of n s -> type_of n t -> tprod n s t R -> type_dim s D -> type_dim t D' -> type_dim R (D * D').
Proof.
  intros Hn Ts Tt TP HD HD'. apply (type_dim_sum n) in HD, HD'; auto. apply (type_dim_sum n); auto; [apply TP|]. apply eq_IZR. rewrite <- (ttr_dim n R) by (auto; apply TP). rewrite (tprod_trace n s t R) by (auto; apply is_perm_pid; lia). rewrite !ttr_dim, mult_IZR by auto. subst. auto.
Qed.

Lemma types_dim n s t R qs aa st D D' : 1 <= n -> type_of n s -> type_of n t -> Forall legal_cgq qs -> cgrun (qs ++ [GTypes s t]) cg0 = Ret (aa ++ [AType R], st) -> type_dim s D -> type_dim t D' -> type_dim R (D * D').
Proof.
  intros Hn Ts Tt L E HD HD'. destruct (cgrun_last qs (GTypes s t) L) as (aa' & a & st' & E' & A); [exists n; auto|]. rewrite E in E'. injection E' as E1 E2. apply app_inj_tail in E1 as (_ & <-). cbn [cg_ans] in A. specialize (A n Hn Ts Tt). apply (tprod_dim n s t); auto.
Qed.

Lemma prod_dim n a b t qs aa st ta tb : 1 <= n -> is_part n a -> is_part n b -> Forall legal_cgq qs -> cgrun (qs ++ [GProd a b]) cg0 = Ret (aa ++ [AType t], st) -> young_tableaux a = Ret ta -> young_tableaux b = Ret tb -> type_dim t (Z.of_nat (length ta) * Z.of_nat (length tb)).
Proof.
  intros Hn Pa Pb L E Ea Eb. destruct (cgrun_last qs (GProd a b) L) as (aa' & z & st' & E' & A); [exists n; auto|]. rewrite E in E'. injection E' as E1 E2. apply app_inj_tail in E1 as (_ & <-). cbn [cg_ans] in A. specialize (A n Hn Pa Pb). pose proof (prod_tprod n a b t Hn Pa Pb A) as TP.
  assert (forall l, is_part n l -> type_of n [(l, 1)]) as T1 by (intros l Pl; split; constructor; auto; constructor).
  apply (tprod_dim n [(a, 1)] [(b, 1)]); auto; apply (type_dim_sum n); auto; rewrite zsum_over_cons, zsum_over_nil; cbn [fst snd].
  - destruct (dimZ_tabs n a Pa Hn) as (ts & E1 & ->). rewrite Ea in E1. apply Ret_inj in E1. subst. lia.
  - destruct (dimZ_tabs n b Pb Hn) as (ts & E1 & ->). rewrite Eb in E1. apply Ret_inj in E1. subst. lia.
Qed.

(* partitions of different numbers *)
Lemma coeff_mixed b n1 n2 n3 x y z : is_part n1 x -> is_part n2 y -> is_part n3 z -> ~ (n1 = n2 /\ n1 = n3) -> cg_coeff b x y z = Abort.
Proof.
  intros Px Py Pz H. unfold cg_coeff. assert (order3 ip_lt x y z = Abort) as ->; auto. unfold order3. pose proof (is_part_sum _ _ Px) as Sx. pose proof (is_part_sum _ _ Py) as Sy. pose proof (is_part_sum _ _ Pz) as Sz.
  destruct (Z.eq_dec n1 n2) as [<-|N]; [|rewrite lt_mixed_aborts by congruence; auto]. destruct (hlt n1 x y Px Py) as (v & -> & _). cbn [bind]. assert (n1 <> n3) as N by tauto. destruct v; rewrite lt_mixed_aborts by congruence; auto.
Qed.

Lemma prod_mixed b n m x y : ginv b -> 1 <= n -> 1 <= m -> is_part n x -> is_part m y -> n <> m -> cg_product b x y = Abort \/ exists b', cg_product b x y = Ret ([], b').
Proof.
  intros I Hn Hm Px Py Ne. unfold cg_product. destruct (ta_find (cg_taus b) (x, y)) as [t|] eqn:Q.
  { exfalso. destruct I as (_ & _ & F). induction F as [|((a, c), w) l (k & Hk & Pa & Pb & E) F IH]; cbn [ta_find] in Q; [discriminate|]. destruct (ip_eq a x && ip_eq c y) eqn:QQ; auto. apply andb_prop in QQ as (Qa & Qb). apply (ip_eq_pos a x (is_part_ppos _ _ Pa) (is_part_ppos _ _ Px)) in Qa. apply (ip_eq_pos c y (is_part_ppos _ _ Pb) (is_part_ppos _ _ Py)) in Qb. subst. pose proof (part_same_n _ _ _ Px Pa). pose proof (part_same_n _ _ _ Py Pb). lia. }
  rewrite ip_getn_zsum, (is_part_sum n x Px), (ip_get0 n), (ip_get0 m) by auto. cbn [bind]. rewrite integer_partitions_ok by auto. cbn [bind]. match goal with |- context [foldM ?f (pl n) ?s] => set (body := f) end.
  assert (forall X, Forall (is_part n) X -> foldM body X ([], b) = Abort \/ foldM body X ([], b) = Ret ([], b)) as K.
  { induction X as [|p X IH]; intros F; cbn [foldM]; auto. inversion F; subst. unfold body at 1 3. rewrite (ip_get0 n p) by auto. cbn [bind]. destruct (Z.leb_spec (n - (2 * n - row x 0 - row y 0)) (row p 0)); [|cbn [bind]; apply IH; auto]. rewrite (coeff_mixed b n m n x y p) by (auto; lia). cbn [bind]. auto. }
  destruct (K (pl n)) as [E|E]; [apply Forall_forall; intros l; apply in_pl; auto| |]; rewrite E; cbn [bind]; [auto|]. right. eexists. reflexivity.
Qed.
