(* The table of characters: its rows and its columns are orthogonal. *)
From Coq Require Import ZArith List Bool Lia ZifyBool Permutation Reals Lra.
From Verif Require Import Model_Base Model_Sn Model_Perm Model_Part Model_Comb Model_Tab Model_Irrep Model_Class Model_Char.
From Verif Require Import Spec_Perm Spec_Part Spec_Tab Spec_Rep Spec_Four Spec_Char.
From Verif Require Import Proof_Base Proof_Perm Proof_Sn Proof_SnProps Proof_Part Proof_PartProps Proof_Tab Proof_TabProps Proof_Cycles Proof_Sum Proof_Irrep Proof_Mat Proof_Schur Proof_Restr Proof_UpDown Proof_Complete Proof_Char Proof_Class Proof_Class2 Proof_Class3 Proof_Kron Proof_CharBank Proof_CG Proof_Rept Proof_IrrepProps.
Import Model_Char ListNotations.
Open Scope Z_scope.

Lemma chi_orth n l l' : 1 <= n -> is_part n l -> is_part n l' ->
  lsum (all_perms n) (fun p => chi n l p * chi n l' p)%R = if list_eq_dec Z.eq_dec l l' then IZR (zfact n) else 0%R.
Proof.
  intros Hn P P'. destruct (mkirr_ok n l P Hn) as (E & G). destruct (mkirr_ok n l' P' Hn) as (E' & G'). pose proof (all_perms_lists n ltac:(lia)) as HL.
  set (A := fun p => match irr_matrix (mkirr n l) p with Ret M => M | _ => mident 0 end). set (B := fun p => match irr_matrix (mkirr n l') p with Ret M => M | _ => mident 0 end).
  rewrite zfact_fact by lia. rewrite <- (characters_orthogonal n l l' _ _ (all_perms n) A B P P' Hn E E' HL).
  - change (@sum_over (list Z)) with (@lsum (list Z)). apply lsum_ext. intros p Hp. apply HL in Hp. unfold A, B.
    destruct (matrix_ok n l _ G p Hp) as (M & -> & _ & _ & V). destruct (matrix_ok n l' _ G' p Hp) as (M' & -> & _ & _ & V'). rewrite (trace_ext _ _ _ V), (trace_ext _ _ _ V'). reflexivity.
  - intros p Hp. apply HL in Hp. unfold A. destruct (matrix_ok n l _ G p Hp) as (M & -> & _). reflexivity.
  - intros p Hp. apply HL in Hp. unfold B. destruct (matrix_ok n l' _ G' p Hp) as (M & -> & _). reflexivity.
Qed.

Lemma cval_rows n l l' : 1 <= n -> is_part n l -> is_part n l' ->
  lsum (pl n) (fun mu => cval n l mu * cval n l' mu * IZR (csz n mu))%R = if list_eq_dec Z.eq_dec l l' then IZR (zfact n) else 0%R.
Proof.
  intros Hn P P'. rewrite <- (chi_orth n l l' Hn P P'). symmetry. apply (class_sum n _ (fun mu => cval n l mu * cval n l' mu)%R); auto; [|intros mu; apply csz_ok; auto].
  intros mu p Pm T. rewrite !(chi_type n _ mu p) by auto. auto.
Qed.

Lemma csz_pos n mu : 1 <= n -> is_part n mu -> 0 < csz n mu.
Proof.
  intros Hn P. unfold csz. destruct (class_size_ok n mu P Hn) as (K & _ & _ & E & H). rewrite E. pose proof (zfact_pos n). assert (Z.of_nat (length K) <> 0) by (intros Q; rewrite Q in H; lia). lia.
Qed.

Lemma cval_columns n mu nu : 1 <= n -> is_part n mu -> is_part n nu ->
  (lsum (pl n) (fun l => cval n l mu * cval n l nu) * IZR (csz n mu))%R = if list_eq_dec Z.eq_dec mu nu then IZR (zfact n) else 0%R.
Proof.
  intros Hn Pm Pn. pose proof (zfact_pos n) as Fp. assert (IZR (zfact n) <> 0)%R as Fz by (apply not_0_IZR; lia).
  pose proof (csz_pos n mu Hn Pm) as Sm. pose proof (csz_pos n nu Hn Pn) as Sn. apply IZR_lt in Sm, Sn.
  pose proof (complete (list_eq_dec Z.eq_dec) (list_eq_dec Z.eq_dec) (pl n) (pl n) (fun l m => cval n l m * sqrt (IZR (csz n m)))%R (fun _ => IZR (zfact n)) (NoDup_plist _) (NoDup_plist _)) as C.
  specialize (C (fun _ _ => Fz)).
  assert (forall b c, In b (pl n) -> In c (pl n) -> lsum (pl n) (fun x => cval n b x * sqrt (IZR (csz n x)) * (cval n c x * sqrt (IZR (csz n x))))%R = if list_eq_dec Z.eq_dec b c then IZR (zfact n) else 0%R) as O.
  { intros b c Hb Hc. apply in_pl in Hb; auto. apply in_pl in Hc; auto. rewrite <- (cval_rows n b c) by auto. apply lsum_ext. intros x Hx. apply in_pl in Hx; auto. pose proof (csz_pos n x Hn Hx) as Sx. apply IZR_lt in Sx.
    rewrite <- (sqrt_sqrt (IZR (csz n x))) at 3 by lra. ring. }
  specialize (C O eq_refl mu nu (proj2 (in_pl n mu Hn) Pm) (proj2 (in_pl n nu Hn) Pn)). cbv beta in C.
  rewrite (lsum_ext _ _ (fun b => (cval n b mu * cval n b nu) * (sqrt (IZR (csz n mu)) * sqrt (IZR (csz n nu)) / IZR (zfact n)))%R) in C by (intros b _; field; auto).
  rewrite lsum_scal_r in C. pose proof (sqrt_lt_R0 _ Sm) as Qm. pose proof (sqrt_lt_R0 _ Sn) as Qn. set (X := lsum (pl n) (fun b => (cval n b mu * cval n b nu)%R)) in *.
  destruct (list_eq_dec Z.eq_dec mu nu) as [<-|Ne].
  - rewrite sqrt_sqrt in C by lra. apply (Rmult_eq_reg_r (/ IZR (zfact n))); [|apply Rinv_neq_0_compat; auto]. rewrite Rinv_r by auto. rewrite <- C. unfold Rdiv. ring.
  - assert (X = 0%R) as ->; [|ring]. apply Rmult_integral in C as [C|C]; auto. exfalso. unfold Rdiv in C. apply Rmult_integral in C as [C|C].
    + apply Rmult_integral in C as [C|C]; lra.
    + apply Rinv_neq_0_compat in Fz. lra.
Qed.

Lemma lists_parts_perm n K : 1 <= n -> lists_parts n K -> Permutation K (pl n).
Proof. intros Hn (N & H). apply NoDup_Permutation; [auto|apply NoDup_plist|]. intros l. rewrite H, in_pl by auto. tauto. Qed.

Lemma table_rows n K l l' f f' s x y : 1 <= n -> lists_parts n K -> is_part n l -> is_part n l' -> character_of n l f -> character_of n l' f' ->
  (forall mu, In mu K -> class_size n mu = Ret (s mu) /\ cf_atl f mu = Ret (x mu) /\ cf_atl f' mu = Ret (y mu)) ->
  sum_over K (fun mu => IZR (s mu) * (x mu * y mu))%R = if list_eq_dec Z.eq_dec l l' then INR (fact (Z.to_nat n)) else 0%R.
Proof.
  intros Hn HK P P' C C' H. apply character_of_chr in C; auto. apply character_of_chr in C'; auto. subst f f'.
  rewrite <- zfact_fact by lia. rewrite <- (cval_rows n l l') by auto. change (@sum_over (list Z)) with (@lsum (list Z)). rewrite <- (lsum_Permutation _ _ _ (lists_parts_perm n K Hn HK)).
  apply lsum_ext. intros mu Hm. destruct (H mu Hm) as (E1 & E2 & E3). apply HK in Hm. rewrite (cf_atl_chr n l mu) in E2 by auto. rewrite (cf_atl_chr n l' mu) in E3 by auto. rewrite (csz_ok n mu Hn Hm) in E1.
  injection E1 as <-. injection E2 as <-. injection E3 as <-. ring.
Qed.

Lemma table_columns n K mu nu s x y : 1 <= n -> lists_parts n K -> is_part n mu -> is_part n nu -> class_size n mu = Ret s ->
  (forall l, In l K -> exists f, character_of n l f /\ cf_atl f mu = Ret (x l) /\ cf_atl f nu = Ret (y l)) ->
  (IZR s * sum_over K (fun l => x l * y l))%R = if list_eq_dec Z.eq_dec mu nu then INR (fact (Z.to_nat n)) else 0%R.
Proof.
  intros Hn HK P P' E H. rewrite <- zfact_fact by lia. rewrite <- (cval_columns n mu nu) by auto. rewrite (csz_ok n mu Hn P) in E. injection E as <-.
  change (@sum_over (list Z)) with (@lsum (list Z)). rewrite Rmult_comm. f_equal. rewrite <- (lsum_Permutation _ _ _ (lists_parts_perm n K Hn HK)).
  apply lsum_ext. intros l Hl. destruct (H l Hl) as (f & C & E2 & E3). apply HK in Hl. apply character_of_chr in C; auto. subst f. rewrite (cf_atl_chr n l) in E2, E3 by auto. injection E2 as <-. injection E3 as <-. auto.
Qed.

(* every function of the classes is a combination of characters, in one way *)
Lemma table_expansion n K s g x a : 1 <= n -> lists_parts n K ->
  (forall mu, In mu K -> class_size n mu = Ret (s mu)) ->
  (forall l, In l K -> exists f, character_of n l f /\ forall mu, In mu K -> cf_atl f mu = Ret (x l mu)) ->
  ((forall mu, In mu K -> g mu = sum_over K (fun l => a l * x l mu)%R) <->
   (forall l, In l K -> a l = (sum_over K (fun mu => IZR (s mu) * (g mu * x l mu)) / INR (fact (Z.to_nat n)))%R)).
Proof.
  intros Hn HK Hs Hx. rewrite <- zfact_fact by lia. pose proof (lists_parts_perm n K Hn HK) as PK. pose proof (zfact_pos n) as Fp. assert (IZR (zfact n) <> 0)%R as Fz by (apply not_0_IZR; lia).
  change (@sum_over (list Z)) with (@lsum (list Z)).
  assert (forall l mu, In l K -> In mu K -> x l mu = cval n l mu) as Ex.
  { intros l mu Hl Hm. destruct (Hx l Hl) as (f & C & E). specialize (E mu Hm). apply HK in Hl, Hm. apply character_of_chr in C; auto. subst f. rewrite (cf_atl_chr n l) in E by auto. injection E as <-. auto. }
  assert (forall mu, In mu K -> s mu = csz n mu) as Es. { intros mu Hm. specialize (Hs mu Hm). apply HK in Hm. rewrite (csz_ok n mu Hn Hm) in Hs. injection Hs as <-. auto. }
  assert (forall l l', In l K -> In l' K -> lsum K (fun mu => IZR (s mu) * (x l mu * x l' mu))%R = if list_eq_dec Z.eq_dec l l' then IZR (zfact n) else 0%R) as R1.
  { intros l l' Hl Hl'. rewrite <- (cval_rows n l l') by (auto; apply HK; auto). rewrite <- (lsum_Permutation _ _ _ PK). apply lsum_ext. intros mu Hm. rewrite !Ex, Es by auto. ring. }
  assert (forall mu nu, In mu K -> In nu K -> (lsum K (fun l => x l mu * x l nu) * IZR (s mu))%R = if list_eq_dec Z.eq_dec mu nu then IZR (zfact n) else 0%R) as R2.
  { intros mu nu Hm Hn'. rewrite <- (cval_columns n mu nu) by (auto; apply HK; auto). rewrite <- (lsum_Permutation _ _ _ PK), Es by auto. f_equal. apply lsum_ext. intros l Hl. rewrite !Ex by auto. auto. }
  split.
  - intros H l Hl. rewrite (lsum_ext _ _ (fun mu => lsum K (fun l' => a l' * (IZR (s mu) * (x l' mu * x l mu))))%R).
    + rewrite lsum_swap. rewrite (lsum_single _ l); auto.
      * rewrite lsum_scal, R1 by auto. destruct (list_eq_dec Z.eq_dec l l); [field; auto|contradiction].
      * apply HK.
      * intros l' Hl' Ne. rewrite lsum_scal, R1 by auto. destruct (list_eq_dec Z.eq_dec l' l); [congruence|ring].
    + intros mu Hm. rewrite H by auto. rewrite <- lsum_scal_r, <- lsum_scal. apply lsum_ext. intros l' _. ring.
  - intros H mu Hm. rewrite (lsum_ext _ _ (fun l => lsum K (fun nu => (g nu / IZR (zfact n)) * (x l nu * x l mu * IZR (s nu)))))%R.
    + rewrite lsum_swap. rewrite (lsum_single _ mu); auto.
      * rewrite lsum_scal, lsum_scal_r, R2 by auto. destruct (list_eq_dec Z.eq_dec mu mu); [field; auto|contradiction].
      * apply HK.
      * intros nu Hnu Ne. rewrite lsum_scal, lsum_scal_r, R2 by auto. destruct (list_eq_dec Z.eq_dec nu mu); [congruence|ring].
    + intros l Hl. rewrite H by auto. unfold Rdiv. rewrite <- !lsum_scal_r. apply lsum_ext. intros nu _. ring.
Qed.

(* the numbers of tableaux *)
Lemma table_dimensions n K ts : 1 <= n -> lists_parts n K -> (forall l, In l K -> young_tableaux l = Ret (ts l)) ->
  sum_over K (fun l => INR (length (ts l)) * INR (length (ts l)))%R = INR (fact (Z.to_nat n)).
Proof.
  intros Hn HK Ht. rewrite <- zfact_fact by lia. pose proof (sum_squares (Z.to_nat (n - 1))) as S. replace (Z.of_nat (Z.to_nat (n - 1)) + 1) with n in S by lia. rewrite <- S. clear S.
  change (@sum_over (list Z)) with (@lsum (list Z)). rewrite <- (lsum_Permutation _ _ _ (lists_parts_perm n K Hn HK)). apply lsum_ext. intros l Hl. specialize (Ht l Hl). apply HK in Hl.
  destruct (dimZ_tabs n l Hl Hn) as (ts' & E & D). rewrite Ht in E. apply Ret_inj in E. subst ts'. rewrite <- (dimZ_R n l Hl), D, INR_IZR_INZ. reflexivity.
Qed.

(* the character of the identity is the number of tableaux *)
Lemma table_identity n l f ts : 1 <= n -> is_part n l -> character_of n l f -> young_tableaux l = Ret ts -> cf_atl f (repeat 1 (Z.to_nat n)) = Ret (INR (length ts)).
Proof.
  intros Hn P C E. destruct (irr_new_spec n l P Hn) as (o & Eo & _ & _ & Et). rewrite E in Et. apply Ret_inj in Et. pose proof (character_at_identity n l o P Hn Eo) as H.
  assert (is_part n (repeat 1 (Z.to_nat n))) as P1.
  { split; [intros x Hx; apply repeat_spec in Hx; lia|]. split; [|rewrite zsum_repeat1; lia]. clear H. induction (Z.to_nat n) as [|k IH]; cbn [repeat]; [constructor|]. constructor; [auto|]. apply Forall_forall. intros x Hx. apply repeat_spec in Hx. lia. }
  destruct (mkirr_ok n l P Hn) as (E' & _). rewrite Eo in E'. apply Ret_inj in E'. subst o. rewrite (irr_character_val n l _ Hn P P1) in H. apply character_of_chr in C; auto. subst f. rewrite (cf_atl_chr n l) by auto. apply Ret_inj in H. rewrite H. unfold io_d. rewrite <- Et. unfold zlen. rewrite INR_IZR_INZ. reflexivity.
Qed.

(* ---- class functions: values by class and by number ---- *)
Definition cfgood (n : Z) (f : cfun) : Prop := cf_n f = n /\ zlen (cf_v f) = zlen (pl n).

Lemma cf_atl_ok n f mu i : 1 <= n -> cfgood n f -> 0 <= i < zlen (pl n) -> znth (pl n) i [] = mu -> cf_atl f mu = Ret (znth (cf_v f) i 0%R).
Proof.
  intros Hn (_ & Hl) Hi E. assert (is_part n mu) as P by (rewrite <- E; apply znth_pl; auto). unfold cf_atl. rewrite ip_getn_zsum, (is_part_sum n mu P), (cindex_ok n mu i) by auto. cbn [bind]. unfold cf_at. apply rd_ok. lia.
Qed.

Lemma cf_setl_ok n f mu i v : 1 <= n -> cfgood n f -> 0 <= i < zlen (pl n) -> znth (pl n) i [] = mu -> cf_setl f mu v = Ret (mkCfun n (zupd (cf_v f) i v)) /\ cf_set f i v = Ret (mkCfun n (zupd (cf_v f) i v)) /\ cfgood n (mkCfun n (zupd (cf_v f) i v)).
Proof.
  intros Hn (Hf & Hl) Hi E. assert (is_part n mu) as P by (rewrite <- E; apply znth_pl; auto). unfold cf_setl. rewrite ip_getn_zsum, (is_part_sum n mu P), (cindex_ok n mu i) by auto. cbn [bind]. unfold cf_set.
  rewrite wr_ok by lia. cbn [bind]. rewrite Hf. split; [reflexivity|]. split; [reflexivity|]. split; [reflexivity|]. cbn [cf_v]. rewrite zlen_zupd by lia. auto.
Qed.

Lemma cf_good n f : 1 <= n -> class_function n f <-> cfgood n f.
Proof.
  intros Hn. unfold class_function, cfgood. rewrite integer_partitions_ok by auto. split; intros (A & B); (split; [exact A|]).
  - unfold zlen. rewrite (B _ eq_refl). auto.
  - intros L E. apply Ret_inj in E. subst L. unfold zlen in B. lia.
Qed.

Lemma class_set_get n f mu v : 1 <= n -> class_function n f -> is_part n mu -> exists f', cf_setl f mu v = Ret f' /\ class_function n f' /\ cf_atl f' mu = Ret v /\
  forall nu, is_part n nu -> nu <> mu -> exists x, cf_atl f' nu = Ret x /\ cf_atl f nu = Ret x.
Proof.
  intros Hn G P. apply cf_good in G; auto. destruct (part_number n mu Hn P) as (i & Hi & E). destruct (cf_setl_ok n f mu i v Hn G Hi E) as (A & _ & G'). assert (zlen (cf_v f) = zlen (pl n)) as Hl by apply G. eexists. split; [exact A|]. split; [apply cf_good; auto|]. split.
  - rewrite (cf_atl_ok n _ mu i) by auto. cbn [cf_v]. rewrite znth_zupd by lia. rewrite Z.eqb_refl. auto.
  - intros nu Pn Ne. destruct (part_number n nu Hn Pn) as (j & Hj & Ej). eexists. rewrite !(cf_atl_ok n _ nu j) by auto. split; [|reflexivity]. cbn [cf_v]. rewrite znth_zupd by lia. destruct (Z.eqb_spec j i) as [Q|_]; auto. subst j. congruence.
Qed.

Lemma class_number n f mu L i v : 1 <= n -> class_function n f -> integer_partitions n = Ret L -> nth_error L i = Some mu ->
  cf_at f (Z.of_nat i) = cf_atl f mu /\ cf_set f (Z.of_nat i) v = cf_setl f mu v /\ cclass n (Z.of_nat i) = Ret mu /\ cindex n mu = Ret (Z.of_nat i) /\ exists x, cf_atl f mu = Ret x.
Proof.
  intros Hn G EL Ei. apply cf_good in G; auto. rewrite integer_partitions_ok in EL by auto. apply Ret_inj in EL. subst L. assert (0 <= Z.of_nat i < zlen (pl n)) as Hi. { assert (nth_error (pl n) i <> None) as Q by congruence. apply nth_error_Some in Q. unfold zlen. lia. }
  assert (znth (pl n) (Z.of_nat i) [] = mu) as Em. { unfold znth. rewrite Nat2Z.id. apply nth_error_nth; auto. } assert (zlen (cf_v f) = zlen (pl n)) as Hl by apply G.
  destruct (cf_setl_ok n f mu _ v Hn G Hi Em) as (A & B & _). rewrite A, B, (cf_atl_ok n f mu _ Hn G Hi Em), (cclass_ok n) by auto. rewrite Em, (cindex_ok n mu _ Hn Hi Em). unfold cf_at. rewrite (rd_ok _ _ 0%R) by lia. repeat split; auto. eexists; reflexivity.
Qed.

Lemma class_zero n : 1 <= n -> exists f, cf_zero n = Ret f /\ class_function n f /\ forall mu, is_part n mu -> cf_atl f mu = Ret 0%R.
Proof.
  intros Hn. unfold cf_zero. rewrite integer_partitions_ok by auto. cbn [bind]. eexists. split; [reflexivity|]. assert (cfgood n (mkCfun n (repeat 0%R (length (pl n))))) as G by (split; [reflexivity|]; cbn [cf_v]; unfold zlen; rewrite repeat_length; auto).
  split; [apply cf_good; auto|]. intros mu P. destruct (part_number n mu Hn P) as (i & Hi & E). rewrite (cf_atl_ok n _ mu i) by auto. f_equal. cbn [cf_v]. unfold znth. apply nth_repeat.
Qed.

(* a partition of another number is looked up among the classes of its own group *)
Lemma class_other (n m : Z) f mu L i : 1 <= m -> is_part m mu -> integer_partitions m = Ret L -> nth_error L i = Some mu -> cf_atl f mu = cf_at f (Z.of_nat i).
Proof.
  intros Hm P EL Ei. rewrite integer_partitions_ok in EL by auto. apply Ret_inj in EL. subst L. assert (0 <= Z.of_nat i < zlen (pl m)) as Hi. { assert (nth_error (pl m) i <> None) as Q by congruence. apply nth_error_Some in Q. unfold zlen. lia. }
  assert (znth (pl m) (Z.of_nat i) [] = mu) as Em. { unfold znth. rewrite Nat2Z.id. apply nth_error_nth; auto. }
  unfold cf_atl. rewrite ip_getn_zsum, (is_part_sum m mu P), (cindex_ok m mu _ Hm Hi Em). reflexivity.
Qed.
