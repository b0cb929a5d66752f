(* The character bank: what every request answers, after any history. *)
From Coq Require Import ZArith List Bool Lia ZifyBool Permutation Reals Lra.
From Verif Require Import Model_Base Model_Sn Model_Perm Model_Part Model_Comb Model_Tab Model_Irrep Model_Char.
From Verif Require Import Spec_Perm Spec_Part Spec_Tab Spec_Rep Spec_Four Spec_Char.
From Verif Require Import Proof_Base Proof_Perm Proof_Sn Proof_SnProps Proof_Part Proof_PartProps Proof_Tab Proof_TabProps Proof_Cycles Proof_Cox Proof_Yor Proof_Sum Proof_Irrep Proof_Rep Proof_Mat Proof_IrrepProps Proof_JM Proof_Conn Proof_Schur Proof_Restr Proof_UpDown Proof_Complete Proof_CombBank Proof_Char Proof_Class Proof_Class2 Proof_Class3 Proof_Kron.
Import Model_Char ListNotations.
Open Scope Z_scope.

Notation pl n := (plist (Z.to_nat (n - 1))).
Definition rep_of (n : Z) (mu : list Z) : list Z := pw n (cw 1 mu).
Definition cval (n : Z) (l mu : list Z) : R := chi n l (rep_of n mu).
Definition chr (n : Z) (l : list Z) : cfun := mkCfun n (map (cval n l) (pl n)).

Lemma in_pl n l : 1 <= n -> In l (pl n) <-> is_part n l. Proof. intros H. apply plist_parts; auto. Qed.

Lemma ip_eq_part n a b : is_part n a -> is_part n b -> ip_eq a b = true <-> a = b.
Proof. intros Ha Hb. rewrite ip_eq_rows. split; [|intros ->; auto]. intros H. apply ppos_ext; auto; eapply is_part_ppos; eauto. Qed.

Lemma rep_of_perm n mu : 1 <= n -> is_part n mu -> is_perm n (rep_of n mu).
Proof. intros Hn P. apply is_perm_pw; [lia|]. intros j Hj. apply (in_cw n mu 1 j); auto; [lia|eapply is_part_ppos; eauto|]. rewrite (is_part_sum n mu P). lia. Qed.

(* the trace on a class *)
Lemma chi_type n l mu p : 1 <= n -> is_part n l -> is_part n mu -> cycle_type n p mu -> chi n l p = cval n l mu.
Proof.
  intros Hn P Pm T. destruct (cycle_type_conj n p mu T (is_part_ppos n mu Pm)) as (q & Q & _ & E). pose proof (is_perm_pinv n q Q) as Q'. pose proof (rep_of_perm n mu Hn Pm) as C. assert (is_perm n p) as Hp by apply T.
  unfold cval. rewrite <- (chi_class n Hn l P q (rep_of n mu) Q C). f_equal. unfold rep_of in *. rewrite <- (pmul_assoc n) by auto. rewrite <- E. rewrite (pmul_assoc n), (pmul_pinv_r n), (pmul_pid_r n) by auto. auto.
Qed.

Lemma irr_character_val n l mu : 1 <= n -> is_part n l -> is_part n mu -> irr_character (mkirr n l) mu = Ret (cval n l mu).
Proof.
  intros Hn P Pm. destruct (mkirr_ok n l P Hn) as (_ & G). destruct (character_ok n l _ G mu (is_part_ppos n mu Pm) (is_part_sum n mu Pm)) as (x & -> & ->). reflexivity.
Qed.

Lemma cclass_ok n i : 1 <= n -> 0 <= i < zlen (pl n) -> cclass n i = Ret (znth (pl n) i []).
Proof. intros Hn Hi. unfold cclass. rewrite integer_partitions_ok by auto. cbn [bind]. apply rd_ok; auto. Qed.

Lemma znth_pl n i : 1 <= n -> 0 <= i < zlen (pl n) -> is_part n (znth (pl n) i []).
Proof. intros Hn Hi. apply in_pl; auto. apply znth_In; auto. Qed.

Lemma char_new_ok n l : 1 <= n -> is_part n l -> char_new n l = Ret (chr n l).
Proof.
  intros Hn P. unfold char_new. rewrite integer_partitions_ok by auto. cbn [bind]. rewrite (proj1 (mkirr_ok n l P Hn)). cbn [bind]. pose proof (zlen_nonneg (pl n)) as Z0.
  destruct (zfor_inv (fun i b => zlen b = zlen (pl n) /\ forall j, 0 <= j < i -> znth b j None = Some (cval n l (znth (pl n) j []))) 0 (zlen (pl n))
    (fun i b => c <- cclass n i ;; x <- irr_character (mkirr n l) c ;; wr b i (Some x)) (repeat None (length (pl n)))) as (b & E & Lb & B); [lia|split; [unfold zlen; rewrite repeat_length; auto|intros; lia]| |].
  - intros i b Hi (Lb & B). rewrite cclass_ok by auto. cbn [bind]. rewrite irr_character_val by (auto; apply znth_pl; auto). cbn [bind]. rewrite wr_ok by lia. eexists. split; [reflexivity|]. split; [rewrite zlen_zupd by lia; auto|]. intros j Hj. rewrite znth_zupd by lia. destruct (Z.eqb_spec j i) as [->|]; auto. apply B. lia.
  - rewrite E. cbn [bind]. rewrite (freeze_ok b (map (cval n l) (pl n)) 0%R); [reflexivity|rewrite zlen_map; auto|]. intros i Hi. rewrite zlen_map in Hi. rewrite B by auto. f_equal. symmetry. apply (znth_map (cval n l)); auto.
Qed.

(* reading a character *)
Lemma cindex_ok n mu i : 1 <= n -> 0 <= i < zlen (pl n) -> znth (pl n) i [] = mu -> cindex n mu = Ret i.
Proof.
  intros Hn Hi E. unfold cindex. rewrite integer_partitions_ok by auto. cbn [bind]. f_equal. assert (NoDup (pl n)) as N by apply NoDup_plist. assert (Forall (is_part n) (pl n)) as F by (apply Forall_forall; intros l; apply in_pl; auto).
  assert (forall X j k, NoDup X -> Forall (is_part n) X -> 0 <= j < zlen X -> znth X j [] = mu -> is_part n mu -> cindex_in X mu k = k + j) as K.
  { induction X as [|x X IH]; intros j k NX FX Hj EX Pm; [unfold zlen in Hj; cbn in Hj; lia|]. inversion NX; subst. inversion FX; subst. cbn [cindex_in]. rewrite zlen_cons in Hj. rewrite znth_cons in * by lia. destruct (Z.eqb_spec j 0) as [->|].
    - rewrite <- EX, (proj2 (ip_eq_part n x x ltac:(auto) ltac:(auto)) eq_refl). lia.
    - rewrite <- EX in *. destruct (ip_eq x (znth X (j - 1) [])) eqn:Q. + apply (ip_eq_part n) in Q; auto. exfalso. apply H1. rewrite Q. apply znth_In. lia. + rewrite (IH (j - 1)) by (auto; lia). lia. }
  rewrite (K _ i) by (auto; rewrite <- E; apply znth_pl; auto). lia.
Qed.

Lemma part_number n mu : 1 <= n -> is_part n mu -> exists i, 0 <= i < zlen (pl n) /\ znth (pl n) i [] = mu.
Proof. intros Hn P. apply (in_pl n mu Hn) in P. apply (In_znth _ _ []) in P. destruct P as (i & Hi & E). exists i. split; auto. Qed.

Lemma cf_at_chr n l i : 1 <= n -> 0 <= i < zlen (pl n) -> cf_at (chr n l) i = Ret (cval n l (znth (pl n) i [])).
Proof. intros Hn Hi. unfold cf_at, chr. cbn [cf_v]. rewrite (rd_ok _ _ 0%R) by (rewrite zlen_map; auto). f_equal. apply (znth_map (cval n l)); auto. Qed.

Lemma cf_atl_chr n l mu : 1 <= n -> is_part n mu -> cf_atl (chr n l) mu = Ret (cval n l mu).
Proof.
  intros Hn P. unfold cf_atl. destruct (part_number n mu Hn P) as (i & Hi & E). rewrite ip_getn_zsum, (is_part_sum n mu P), (cindex_ok n mu i) by auto. cbn [bind]. rewrite cf_at_chr by auto. rewrite E. auto.
Qed.

Lemma chr_character n l : 1 <= n -> is_part n l -> character_of n l (chr n l).
Proof.
  intros Hn P. destruct (mkirr_ok n l P Hn) as (E & G). split; [reflexivity|]. split; [|split].
  - intros mu s Pm T. assert (is_perm n s) as Hs by apply T. destruct (matrix_ok n l _ G s Hs) as (M & EM & _ & _ & V). exists (mkirr n l), M. split; auto. split; auto. rewrite cf_atl_chr by auto. f_equal. rewrite <- (chi_type n l mu s) by auto. unfold chi. symmetry. apply trace_ext; auto.
  - intros L i mu EL Ei. rewrite integer_partitions_ok in EL by auto. injection EL as <-. assert (0 <= Z.of_nat i < zlen (pl n)) as Hi. { assert (nth_error (pl n) i <> None) as Q by congruence. apply nth_error_Some in Q. unfold zlen. lia. }
    assert (znth (pl n) (Z.of_nat i) [] = mu) as Em. { unfold znth. rewrite Nat2Z.id. apply nth_error_nth; auto. } rewrite cf_at_chr, Em by auto. rewrite cf_atl_chr; auto. rewrite <- Em. apply znth_pl; auto.
  - intros L EL. rewrite integer_partitions_ok in EL by auto. injection EL as <-. cbn [chr cf_v]. apply map_length.
Qed.

Lemma character_of_chr n l f : 1 <= n -> is_part n l -> character_of n l f -> f = chr n l.
Proof.
  intros Hn P (N & T & I & Le). pose proof (chr_character n l Hn P) as (N' & T' & I' & Le'). pose proof (integer_partitions_ok n Hn) as EL. destruct f as (m, v). cbn [cf_n cf_v] in *. subst m. unfold chr in *. cbn [cf_v] in *. f_equal. specialize (Le _ EL). specialize (Le' _ EL).
  apply (list_ext _ _ 0%R); [unfold zlen; lia|]. intros i Hi. assert (0 <= i < zlen (pl n)) as Hi' by (unfold zlen in *; lia). set (mu := znth (pl n) i []). assert (is_part n mu) as Pm by (apply znth_pl; auto).
  assert (nth_error (pl n) (Z.to_nat i) = Some mu) as En. { unfold mu, znth. apply nth_error_nth'. unfold zlen in Hi'. lia. }
  destruct (class_size_ok n mu Pm Hn) as (K & NK & HK & _ & K0). assert (exists s, cycle_type n s mu) as (s & Ts).
  { destruct K as [|s K]; [exfalso; cbn in K0; pose proof (zfact_pos n); lia|]. exists s. apply HK. left; auto. }
  specialize (T mu s Pm Ts). specialize (T' mu s Pm Ts). destruct T as (o & M & Eo & EM & A1). destruct T' as (o' & M' & Eo' & EM' & B1). rewrite Eo in Eo'. injection Eo' as <-. rewrite EM in EM'. injection EM' as <-.
  specialize (I _ _ _ EL En). specialize (I' _ _ _ EL En). rewrite A1 in I. rewrite B1 in I'. unfold cf_at in I, I'. cbn [cf_v] in *. rewrite Z2Nat.id in I, I' by lia.
  rewrite (rd_ok _ _ 0%R) in I by (unfold zlen in *; lia). rewrite (rd_ok _ _ 0%R) in I' by (unfold zlen in *; lia). congruence.
Qed.

(* different irreps have different characters *)
Lemma chr_inj n a b : 1 <= n -> is_part n a -> is_part n b -> chr n a = chr n b -> a = b.
Proof.
  intros Hn Pa Pb E. destruct (list_eq_dec Z.eq_dec a b) as [|Ne]; auto. exfalso.
  assert (forall p, is_perm n p -> chi n a p = chi n b p) as C.
  { intros p Hp. destruct (type_exists n p Hp) as (mu & Pm & T). rewrite (chi_type n a mu p), (chi_type n b mu p) by auto. pose proof (cf_atl_chr n a mu Hn Pm) as Q. rewrite E, cf_atl_chr in Q by auto. injection Q as Q. auto. }
  destruct (mkirr_ok n a Pa Hn) as (Ea & Ga). destruct (mkirr_ok n b Pb Hn) as (Eb & Gb). pose proof (all_perms_lists n ltac:(lia)) as HL.
  set (A := fun p => match irr_matrix (mkirr n a) p with Ret M => M | _ => mident 0 end). set (B := fun p => match irr_matrix (mkirr n b) p with Ret M => M | _ => mident 0 end).
  assert (forall p, is_perm n p -> irr_matrix (mkirr n a) p = Ret (A p) /\ chi n a p = trace (dd n a) (m_at (A p))) as HA. { intros p Hp. unfold A. destruct (matrix_ok n a _ Ga p Hp) as (M & EM & _ & _ & V). rewrite EM. split; auto. unfold chi. symmetry. apply trace_ext; auto. }
  assert (forall p, is_perm n p -> irr_matrix (mkirr n b) p = Ret (B p) /\ chi n b p = trace (dd n b) (m_at (B p))) as HB. { intros p Hp. unfold B. destruct (matrix_ok n b _ Gb p Hp) as (M & EM & _ & _ & V). rewrite EM. split; auto. unfold chi. symmetry. apply trace_ext; auto. }
  pose proof (characters_orthogonal n a a _ _ _ A A Pa Pa Hn Ea Ea HL (fun p Hp => proj1 (HA p (proj1 (proj2 HL p) Hp))) (fun p Hp => proj1 (HA p (proj1 (proj2 HL p) Hp)))) as O1.
  pose proof (characters_orthogonal n a b _ _ _ A B Pa Pb Hn Ea Eb HL (fun p Hp => proj1 (HA p (proj1 (proj2 HL p) Hp))) (fun p Hp => proj1 (HB p (proj1 (proj2 HL p) Hp)))) as O2.
  destruct (list_eq_dec Z.eq_dec a a); [|contradiction]. destruct (list_eq_dec Z.eq_dec a b); [contradiction|].
  change (lsum (all_perms n) (fun p => trace (dd n a) (m_at (A p)) * trace (dd n a) (m_at (A p)))%R = INR (fact (Z.to_nat n))) in O1. change (lsum (all_perms n) (fun p => trace (dd n a) (m_at (A p)) * trace (dd n b) (m_at (B p)))%R = 0%R) in O2.
  rewrite (lsum_ext _ _ (fun p => trace (dd n a) (m_at (A p)) * trace (dd n b) (m_at (B p)))%R) in O1. 2:{ intros p Hp. apply HL in Hp. f_equal. rewrite <- (proj2 (HA p Hp)), <- (proj2 (HB p Hp)). auto. }
  pose proof (INR_fact_lt_0 (Z.to_nat n)). lra.
Qed.

(* ---- the bank ---- *)
Definition linv (n : Z) (v : clev) : Prop :=
  cl_n v = n /\ NoDup (map fst (cl_chars v)) /\ Forall (fun p => is_part n (fst p) /\ snd p = chr n (fst p)) (cl_chars v).
Definition lev0 : clev := mkClev 0 [].
Definition cbinv (b : list clev) : Prop := forall k, 0 <= k < zlen b -> linv (k + 1) (znth b k lev0).

(* the irreps of S_n in the order in which their characters were made *)
Definition keys (b : list clev) (n : Z) : list (list Z) := if n <=? zlen b then map fst (cl_chars (znth b (n - 1) lev0)) else [].

Lemma im_get_ok n m l : Forall (fun p => is_part n (fst p) /\ snd p = chr n (fst p)) m -> is_part n l ->
  match im_get m l with Some c => c = chr n l /\ In l (map fst m) | None => ~ In l (map fst m) end.
Proof.
  induction m as [|(k, c) m IH]; intros F P; cbn [im_get]; [cbn; auto|]. inversion F as [|? ? (A1 & A2) A3]; subst. cbn [fst snd] in *. specialize (IH A3 P). destruct (ip_eq k l) eqn:E.
  - apply (ip_eq_part n) in E; auto. subst k. split; auto. left; auto.
  - assert (k <> l) by (intros ->; rewrite (proj2 (ip_eq_part n l l P P) eq_refl) in E; discriminate). destruct (im_get m l); [destruct IH; split; auto; right; auto|]. intros [|]; auto.
Qed.

(* one more key, unless it is there *)
Definition ins (l : list Z) (K : list (list Z)) : list (list Z) := if in_dec (list_eq_dec Z.eq_dec) l K then K else K ++ [l].

Lemma NoDup_snoc {A} (K : list A) x : NoDup K -> ~ In x K -> NoDup (K ++ [x]).
Proof. intros N H. eapply Permutation_NoDup; [apply Permutation_cons_append|]. constructor; auto. Qed.

Lemma cl_get_ok n v l : 1 <= n -> linv n v -> is_part n l -> exists v', cl_get v l = Ret (chr n l, v') /\ linv n v' /\ map fst (cl_chars v') = ins l (map fst (cl_chars v)).
Proof.
  intros Hn (N & ND & F) P. unfold cl_get. rewrite ip_getn_zsum, (is_part_sum n l P), N, Z.eqb_refl. cbn [assert_ bind]. pose proof (im_get_ok n (cl_chars v) l F P) as G. unfold ins. destruct (im_get (cl_chars v) l).
  - destruct G as (-> & I). exists v. split; auto. split; [split; auto|]. destruct (in_dec _ l _); [auto|contradiction].
  - rewrite char_new_ok by auto. cbn [bind]. eexists. split; [reflexivity|]. destruct (in_dec _ l _); [contradiction|]. split.
    + split; [auto|]. cbn [cl_chars]. rewrite map_app. cbn [map fst]. split; [apply NoDup_snoc; auto|]. apply Forall_app. split; auto.
    + cbn [cl_chars]. rewrite map_app. auto.
Qed.

Definition insall (K : list (list Z)) (X : list (list Z)) : list (list Z) := fold_left (fun K l => ins l K) X K.

Lemma cl_make_all_ok n v : 1 <= n -> linv n v -> exists v', cl_make_all v = Ret v' /\ linv n v' /\ map fst (cl_chars v') = insall (map fst (cl_chars v)) (pl n).
Proof.
  intros Hn V. unfold cl_make_all. rewrite (proj1 V), integer_partitions_ok by auto. cbn [bind].
  assert (Forall (is_part n) (pl n)) as F by (apply Forall_forall; intros l; apply in_pl; auto). revert v V F. generalize (pl n) as X. induction X as [|x X IH]; intros v V F; cbn [foldM insall fold_left]; [exists v; auto|]. inversion F; subst.
  destruct (cl_get_ok n v x Hn V H1) as (v' & E & V' & K). rewrite E. cbn [bind snd]. destruct (IH v' V' H2) as (w & Ew & W & KW). exists w. split; auto. split; auto. rewrite KW, K. reflexivity.
Qed.

Lemma in_ins l K x : In x (ins l K) <-> In x K \/ x = l.
Proof. unfold ins. destruct (in_dec _ l K); [|rewrite in_app_iff; cbn]; intuition congruence. Qed.
Lemma ins_prefix l K : exists T, ins l K = K ++ T.
Proof. unfold ins. destruct (in_dec _ l K); eexists; [symmetry; apply app_nil_r|reflexivity]. Qed.
Lemma in_insall X : forall K x, In x (insall K X) <-> In x K \/ In x X.
Proof. induction X as [|y X IH]; intros K x; cbn [insall fold_left]; [cbn; tauto|]. unfold insall in IH. rewrite IH, in_ins. cbn. intuition congruence. Qed.
Lemma insall_prefix X : forall K, exists T, insall K X = K ++ T.
Proof. induction X as [|y X IH]; intros K; cbn [insall fold_left]; [exists []; symmetry; apply app_nil_r|]. destruct (ins_prefix y K) as (T & E). destruct (IH (ins y K)) as (T' & E'). unfold insall in E'. rewrite E', E, <- app_assoc. eexists; auto. Qed.
Lemma NoDup_ins l K : NoDup K -> NoDup (ins l K).
Proof. unfold ins. destruct (in_dec _ l K); auto. intros. apply NoDup_snoc; auto. Qed.
Lemma insall_nil X : NoDup X -> insall [] X = X.
Proof.
  intros N. assert (forall Y K, NoDup (K ++ Y) -> insall K Y = K ++ Y) as Q; [|apply (Q X []); auto]. induction Y as [|y Y IH]; intros K H; cbn [insall fold_left]; [symmetry; apply app_nil_r|].
  assert (ins y K = K ++ [y]) as ->. { unfold ins. destruct (in_dec _ y K); auto. apply NoDup_remove_2 in H. exfalso. apply H. apply in_or_app; auto. }
  change (fold_left (fun K l => ins l K) Y (K ++ [y])) with (insall (K ++ [y]) Y). rewrite IH; rewrite <- app_assoc; auto.
Qed.
Lemma insall_full K X : incl X K -> insall K X = K.
Proof. revert K. induction X as [|y X IH]; intros K H; cbn [insall fold_left]; auto. assert (ins y K = K) as ->. { unfold ins. destruct (in_dec _ y K); auto. exfalso. apply n, H. left; auto. } apply IH. intros x Hx. apply H. right; auto. Qed.

Lemma cb_level_ok b n : 1 <= n -> cbinv b -> exists v b', cb_level b n = Ret (v, b') /\ cbinv b' /\ linv n v /\ n <= zlen b' /\ znth b' (n - 1) lev0 = v /\ (forall m, 1 <= m -> keys b' m = keys b m).
Proof.
  intros Hn I. unfold cb_level, cb_grow. pose proof (zlen_nonneg b) as Z0. destruct (Z.ltb_spec (n - 1) (zlen b)) as [H|H].
  - destruct (Z.leb_spec 1 n); [|lia]. cbn [andb bind]. rewrite (rd_ok _ _ lev0) by lia. cbn [bind]. exists (znth b (n - 1) lev0), b. split; auto. split; auto. split; [specialize (I (n - 1) ltac:(lia)); replace (n - 1 + 1) with n in I by lia; auto|]. split; [lia|]. auto.
  - cbn [andb]. destruct (Z.ltb_spec n 1); [lia|]. cbn [bind]. set (X := map (fun i => mkClev i []) (zrange (zlen b + 1) (n + 1))).
    assert (zlen X = n - zlen b) as LX by (unfold X; rewrite zlen_map, zlen_zrange; lia). assert (zlen (b ++ X) = n) as LB by (rewrite zlen_app; lia).
    assert (forall k, zlen b <= k < n -> znth (b ++ X) k lev0 = mkClev (k + 1) []) as V. { intros k Hk. rewrite znth_app by lia. destruct (Z.ltb_spec k (zlen b)); [lia|]. unfold X. rewrite (znth_map _ _ _ 0) by (rewrite zlen_zrange; lia). rewrite znth_zrange by lia. f_equal. lia. }
    assert (forall k, linv k (mkClev k [])) as L0 by (intros k; split; [auto|]; split; constructor).
    rewrite (rd_ok _ _ lev0) by lia. cbn [bind]. exists (znth (b ++ X) (n - 1) lev0), (b ++ X). split; auto. split; [|split; [|split; [lia|split; auto]]].
    + intros k Hk. destruct (Z_lt_le_dec k (zlen b)) as [C|C]; [rewrite znth_app by lia; destruct (Z.ltb_spec k (zlen b)); [apply I; lia|lia]|]. rewrite V by lia. apply L0.
    + rewrite V by lia. replace (n - 1 + 1) with n by lia. apply L0.
    + intros m Hm. unfold keys. destruct (Z.leb_spec m (zlen (b ++ X))), (Z.leb_spec m (zlen b)); try lia; auto.
      * rewrite znth_app by lia. destruct (Z.ltb_spec (m - 1) (zlen b)); [auto|lia].
      * rewrite V by lia. reflexivity.
Qed.

Lemma wr_level b n v : 1 <= n <= zlen b -> cbinv b -> linv n v -> exists b', wr b (n - 1) v = Ret b' /\ cbinv b' /\ zlen b' = zlen b /\ keys b' n = map fst (cl_chars v) /\ forall m, 1 <= m -> m <> n -> keys b' m = keys b m.
Proof.
  intros Hn I V. rewrite wr_ok by lia. eexists. split; [reflexivity|]. assert (zlen (zupd b (n - 1) v) = zlen b) as LZ by (apply zlen_zupd; lia). split; [|split; [auto|split]].
  - intros k Hk. rewrite znth_zupd by lia. destruct (Z.eqb_spec k (n - 1)) as [->|]; [replace (n - 1 + 1) with n by lia; auto|apply I; lia].
  - unfold keys. rewrite LZ. destruct (Z.leb_spec n (zlen b)); [|lia]. rewrite znth_zupd by lia. rewrite Z.eqb_refl. auto.
  - intros m Hm Ne. unfold keys. rewrite LZ. destruct (Z.leb_spec m (zlen b)); auto. rewrite znth_zupd by lia. destruct (Z.eqb_spec (m - 1) (n - 1)); [lia|auto].
Qed.

Lemma cb_get_ok b n l : 1 <= n -> cbinv b -> is_part n l -> exists b', cb_get b l = Ret (chr n l, b') /\ cbinv b' /\ keys b' n = ins l (keys b n) /\ forall m, 1 <= m -> m <> n -> keys b' m = keys b m.
Proof.
  intros Hn I P. unfold cb_get. rewrite ip_getn_zsum, (is_part_sum n l P). destruct (cb_level_ok b n Hn I) as (v & b1 & E & I1 & V & L1 & Z1 & K1). rewrite E. cbn [bind]. destruct (cl_get_ok n v l Hn V P) as (v' & E' & V' & K'). rewrite E'. cbn [bind].
  destruct (wr_level b1 n v' ltac:(lia) I1 V') as (b2 & E2 & I2 & _ & K2 & O2). rewrite E2. cbn [bind]. exists b2. split; auto. split; auto. split.
  - rewrite K2, K', <- K1 by lia. unfold keys. destruct (Z.leb_spec n (zlen b1)); [|lia]. rewrite Z1. auto.
  - intros m Hm Ne. rewrite O2, K1; auto.
Qed.

(* what a request answers and what it does to the keys *)
Definition chans (K : Z -> list (list Z)) (q : chq) : Z * list Z :=
  match q with
  | ChNew l => (zsum l, l)
  | ChOf n l => (n, l)
  | ChAt n i => (n, znth (insall (K n) (pl n)) i [])
  | ChNo n i => (n, [n])
  end.
Definition chupd (K : Z -> list (list Z)) (q : chq) : Z -> list (list Z) :=
  match q with
  | ChNew l => fun m => if m =? zsum l then ins l (K m) else K m
  | ChOf n l => fun m => if m =? n then ins l (K m) else K m
  | ChAt n _ => fun m => if m =? n then insall (K m) (pl m) else K m
  | ChNo n _ => fun m => if m =? n then ins [n] (K m) else K m
  end.

Lemma is_part_row n : 1 <= n -> is_part n [n].
Proof. intros H. apply is_part_intro; [intros x [<-|[]]; auto| |cbn; lia]. intros i Hi. rewrite !row_cons by lia. destruct (Z.eqb_spec (i + 1) 0); [lia|]. rewrite row_nil. destruct (Z.eqb_spec i 0); [lia|]. rewrite row_nil. lia. Qed.

Lemma keys_part b n l : 1 <= n -> cbinv b -> In l (keys b n) -> is_part n l.
Proof. intros Hn I. unfold keys. destruct (Z.leb_spec n (zlen b)); [|intros []]. destruct (I (n - 1) ltac:(lia)) as (_ & _ & F). replace (n - 1 + 1) with n in F by lia. rewrite Forall_forall in F. intros Hl. apply in_map_iff in Hl as (p & <- & Hp). apply F; auto. Qed.
Lemma keys_nodup b n : 1 <= n -> cbinv b -> NoDup (keys b n).
Proof. intros Hn I. unfold keys. destruct (Z.leb_spec n (zlen b)); [|constructor]. apply (I (n - 1)). lia. Qed.
Lemma NoDup_insall X : forall K, NoDup K -> NoDup (insall K X).
Proof. induction X as [|y X IH]; intros K H; cbn [insall fold_left]; auto. apply IH. apply NoDup_ins; auto. Qed.

Lemma insall_lists n K : 1 <= n -> NoDup K -> (forall l, In l K -> is_part n l) -> lists_parts n (insall K (pl n)).
Proof. intros Hn N H. split; [apply NoDup_insall; auto|]. intros l. rewrite in_insall, in_pl by auto. split; [intros [|]; auto|auto]. Qed.

Lemma lists_parts_len n K : 1 <= n -> lists_parts n K -> zlen K = zlen (pl n).
Proof. intros Hn (N & H). unfold zlen. f_equal. apply Permutation_length, NoDup_Permutation; [auto|apply NoDup_plist|]. intros l. rewrite H, in_pl by auto. tauto. Qed.

Lemma chstep_ok q b : legal_chq q -> cbinv b -> exists b', chstep q b = Ret (chr (fst (chans (keys b) q)) (snd (chans (keys b) q)), b') /\ cbinv b' /\ (forall m, 1 <= m -> keys b' m = chupd (keys b) q m) /\
  1 <= fst (chans (keys b) q) /\ is_part (fst (chans (keys b) q)) (snd (chans (keys b) q)).
Proof.
  intros Lq I. destruct q as [l|n l|n i|n i]; cbn [chstep chans chupd fst snd legal_chq] in *.
  - destruct Lq as (n & Hn & P). pose proof (is_part_sum n l P) as Es. rewrite Es. destruct (cb_get_ok b n l Hn I P) as (b' & E & I' & K & O). exists b'. split; auto. split; auto. split; auto. intros m Hm. destruct (Z.eqb_spec m n) as [->|]; auto.
  - destruct Lq as (Hn & P). destruct (cb_level_ok b n Hn I) as (v & b1 & E & I1 & V & L1 & Z1 & K1). rewrite E. cbn [bind]. destruct (cl_get_ok n v l Hn V P) as (v' & E' & V' & K'). rewrite E'. cbn [bind].
    destruct (wr_level b1 n v' ltac:(lia) I1 V') as (b2 & E2 & I2 & _ & K2 & O2). rewrite E2. cbn [bind]. exists b2. split; auto. split; auto. split; auto. intros m Hm. destruct (Z.eqb_spec m n) as [->|].
    + rewrite K2, K', <- K1 by lia. unfold keys. destruct (Z.leb_spec n (zlen b1)); [|lia]. rewrite Z1. auto.
    + rewrite O2, K1; auto.
  - destruct Lq as (Hn & L & EL & Hi). rewrite integer_partitions_ok in EL by auto. injection EL as <-. destruct (cb_level_ok b n Hn I) as (v & b1 & E & I1 & V & L1 & Z1 & K1). rewrite E. cbn [bind]. destruct (cl_make_all_ok n v Hn V) as (v' & E' & V' & K'). rewrite E'. cbn [bind].
    assert (map fst (cl_chars v) = keys b n) as KV. { rewrite <- K1 by lia. unfold keys. destruct (Z.leb_spec n (zlen b1)); [|lia]. rewrite Z1. auto. } rewrite KV in K'.
    pose proof (insall_lists n (keys b n) Hn (keys_nodup b n Hn I) (fun l => keys_part b n l Hn I)) as LP. pose proof (lists_parts_len n _ Hn LP) as LL. rewrite <- K', zlen_map in LL.
    unfold cl_at. rewrite (rd_ok _ _ ([], mkCfun 0 [])) by (unfold zlen in *; lia). cbn [bind]. destruct (wr_level b1 n v' ltac:(lia) I1 V') as (b2 & E2 & I2 & _ & K2 & O2). rewrite E2. cbn [bind]. exists b2.
    assert (In (znth (cl_chars v') i ([], mkCfun 0 [])) (cl_chars v')) as Hin by (apply znth_In; unfold zlen in *; lia). destruct V' as (_ & _ & F). rewrite Forall_forall in F. destruct (F _ Hin) as (Q1 & Q2). rewrite Q2. rewrite <- K'. rewrite (znth_map fst _ _ ([], mkCfun 0 [])) by (unfold zlen in *; lia).
    split; auto. split; auto. split; auto. intros m Hm. destruct (Z.eqb_spec m n) as [->|]; [rewrite K2, K'; auto|rewrite O2, K1; auto].
  - pose proof (is_part_row n Lq) as P. destruct (cb_get_ok b n [n] Lq I P) as (b' & E & I' & K & O). exists b'. split; auto. split; auto. split; auto. intros m Hm. destruct (Z.eqb_spec m n) as [->|]; auto.
Qed.

(* ---- histories ---- *)
Fixpoint chkeys (qs : list chq) (K : Z -> list (list Z)) : Z -> list (list Z) := match qs with [] => K | q :: qs => chkeys qs (chupd K q) end.
Fixpoint chanss (qs : list chq) (K : Z -> list (list Z)) : list (Z * list Z) := match qs with [] => [] | q :: qs => chans K q :: chanss qs (chupd K q) end.

Definition keq (K K' : Z -> list (list Z)) : Prop := forall m, 1 <= m -> K m = K' m.
Lemma chupd_ext q K K' : keq K K' -> keq (chupd K q) (chupd K' q).
Proof. intros H m Hm. destruct q; cbn [chupd]; rewrite (H m Hm); auto. Qed.
Lemma chans_ext q K K' : legal_chq q -> keq K K' -> chans K q = chans K' q.
Proof. intros L H. destruct q; cbn [chans] in *; auto. destruct L as (Hn & _). rewrite (H _ Hn). auto. Qed.
Lemma chkeys_ext qs : forall K K', keq K K' -> keq (chkeys qs K) (chkeys qs K').
Proof. induction qs as [|q qs IH]; intros K K' H; cbn [chkeys]; auto. apply IH, chupd_ext; auto. Qed.
Lemma chanss_ext qs : forall K K', Forall legal_chq qs -> keq K K' -> chanss qs K = chanss qs K'.
Proof. induction qs as [|q qs IH]; intros K K' L H; cbn [chanss]; auto. inversion L; subst. rewrite (chans_ext q K K') by auto. f_equal. apply IH; auto. apply chupd_ext; auto. Qed.

Lemma chrun_ok qs : forall b, cbinv b -> Forall legal_chq qs -> exists b', chrun qs b = Ret (map (fun a => chr (fst a) (snd a)) (chanss qs (keys b)), b') /\ cbinv b' /\ keq (keys b') (chkeys qs (keys b)) /\ Forall (fun a => 1 <= fst a /\ is_part (fst a) (snd a)) (chanss qs (keys b)).
Proof.
  induction qs as [|q qs IH]; intros b I L; cbn [chrun chanss chkeys map]; [exists b; split; auto; split; auto; split; [intros m _; auto|constructor]|]. inversion L; subst. destruct (chstep_ok q b H1 I) as (b1 & E & I1 & K1 & A1 & A2). rewrite E. cbn [bind fst snd].
  destruct (IH b1 I1 H2) as (b2 & E2 & I2 & K2 & F2). rewrite E2. cbn [bind fst snd]. pose proof (chanss_ext qs (keys b1) (chupd (keys b) q) H2 K1) as EC. rewrite EC in *. exists b2. split; auto. split; auto. split; [|constructor; auto].
  intros m Hm. rewrite K2 by auto. apply chkeys_ext; auto.
Qed.

Lemma chanss_app qs qs' K : chanss (qs ++ qs') K = chanss qs K ++ chanss qs' (chkeys qs K).
Proof. revert K. induction qs as [|q qs IH]; intros K; cbn [chanss chkeys app]; auto. rewrite IH. auto. Qed.
Lemma chkeys_app qs qs' K : chkeys (qs ++ qs') K = chkeys qs' (chkeys qs K).
Proof. revert K. induction qs as [|q qs IH]; intros K; cbn [chkeys app]; auto. Qed.

Lemma keys0 : keq (keys []) (fun _ => []).
Proof. intros m Hm. unfold keys. change (zlen (@nil clev)) with 0. destruct (Z.leb_spec m 0); [lia|auto]. Qed.
Lemma cbinv0 : cbinv []. Proof. intros k Hk. change (zlen (@nil clev)) with 0 in Hk. lia. Qed.

Notation K0 := (fun _ : Z => @nil (list Z)).
Lemma chrun0 qs : Forall legal_chq qs -> exists b', chrun qs [] = Ret (map (fun a => chr (fst a) (snd a)) (chanss qs K0), b') /\ Forall (fun a => 1 <= fst a /\ is_part (fst a) (snd a)) (chanss qs K0).
Proof. intros L. destruct (chrun_ok qs [] cbinv0 L) as (b' & E & _ & _ & F). rewrite (chanss_ext qs _ K0 L keys0) in *. exists b'. auto. Qed.

(* the keys stay a list of different partitions *)
Definition kok (n : Z) (K : list (list Z)) : Prop := NoDup K /\ forall l, In l K -> is_part n l.
Lemma kok_upd q K n : legal_chq q -> 1 <= n -> kok n (K n) -> kok n (chupd K q n).
Proof.
  intros L Hn (N & I). assert (forall l, is_part n l -> kok n (ins l (K n))) as Q. { intros l P. split; [apply NoDup_ins; auto|]. intros x. rewrite in_ins. intros [? | ->]; auto. }
  destruct q as [l|m l|m i|m i]; cbn [chupd legal_chq] in *.
  - destruct L as (m & Hm & P). rewrite (is_part_sum m l P). destruct (Z.eqb_spec n m) as [->|]; [apply Q; auto|split; auto].
  - destruct L as (Hm & P). destruct (Z.eqb_spec n m) as [->|]; [apply Q; auto|split; auto].
  - destruct (Z.eqb_spec n m) as [->|]; [|split; auto]. destruct (insall_lists m (K m) Hn N I) as (A1 & A2). split; auto. intros l. apply A2.
  - destruct (Z.eqb_spec n m) as [->|]; [apply Q, is_part_row; auto|split; auto].
Qed.
Lemma kok_keys qs : forall K n, Forall legal_chq qs -> 1 <= n -> kok n (K n) -> kok n (chkeys qs K n).
Proof. induction qs as [|q qs IH]; intros K n L Hn H; cbn [chkeys]; auto. inversion L; subst. apply IH; auto. apply kok_upd; auto. Qed.

Lemma full_upd q K n : legal_chq q -> 1 <= n -> lists_parts n (K n) -> chupd K q n = K n.
Proof.
  intros L Hn (N & I). assert (forall l, is_part n l -> ins l (K n) = K n) as Q. { intros l P. unfold ins. destruct (in_dec _ l (K n)) as [|Ni]; auto. exfalso. apply Ni, I; auto. }
  destruct q as [l|m l|m i|m i]; cbn [chupd legal_chq] in *.
  - destruct L as (m & Hm & P). rewrite (is_part_sum m l P). destruct (Z.eqb_spec n m) as [->|]; auto.
  - destruct L as (Hm & P). destruct (Z.eqb_spec n m) as [->|]; auto.
  - destruct (Z.eqb_spec n m) as [->|]; auto. apply insall_full. intros l Hl. apply I. apply in_pl; auto.
  - destruct (Z.eqb_spec n m) as [->|]; auto. apply Q, is_part_row; auto.
Qed.
Lemma full_keys qs : forall K n, Forall legal_chq qs -> 1 <= n -> lists_parts n (K n) -> chkeys qs K n = K n.
Proof. induction qs as [|q qs IH]; intros K n L Hn H; cbn [chkeys]; auto. inversion L; subst. pose proof (full_upd q K n H2 Hn H) as E. rewrite IH; auto. rewrite E; auto. Qed.

(* the statements *)
Definition ch_answer (q : chq) (f : cfun) : Prop :=
  match q with
  | ChNew l => exists n, is_part n l /\ character_of n l f
  | ChOf n l => character_of n l f
  | ChAt n i => exists l, is_part n l /\ character_of n l f
  | ChNo n i => character_of n [n] f
  end.

Lemma ch_answers qs : Forall legal_chq qs -> exists fs b, chrun qs [] = Ret (fs, b) /\ Forall2 ch_answer qs fs.
Proof.
  intros L. destruct (chrun0 qs L) as (b & E & F). eexists _, b. split; [exact E|]. clear E. revert F. generalize (fun _ : Z => @nil (list Z)) as K. induction L as [|q qs H L IH]; intros K F; cbn [chanss map] in *; [constructor|]. inversion F; subst. constructor; [|apply IH; auto]. destruct H2 as (A1 & A2).
  destruct q as [l|n l|n i|n i]; cbn [ch_answer chans fst snd legal_chq] in *.
  - exists (zsum l). split; auto. apply chr_character; auto.
  - apply chr_character; auto.
  - eexists. split; [exact A2|]. apply chr_character; auto.
  - apply chr_character; auto.
Qed.

Lemma ch_last qs n i : Forall legal_chq (qs ++ [ChAt n i]) -> exists fs b, chrun (qs ++ [ChAt n i]) [] = Ret (fs ++ [chr n (znth (insall (chkeys qs K0 n) (pl n)) i [])], b).
Proof.
  intros L. destruct (chrun0 _ L) as (b & E & _). rewrite E. rewrite chanss_app, map_app. eexists _, b. reflexivity.
Qed.

Lemma kok0 n : kok n []. Proof. split; [constructor|intros l []]. Qed.

Lemma ch_at_n n i : legal_chq (ChAt n i) -> 1 <= n /\ 0 <= i < zlen (pl n).
Proof. intros (Hn & L & EL & Hi). rewrite integer_partitions_ok in EL by auto. injection EL as <-. unfold zlen. auto. Qed.
Lemma ch_at_legal n i K : 1 <= n -> lists_parts n K -> 0 <= i < zlen K -> legal_chq (ChAt n i).
Proof. intros Hn LP Hi. split; auto. exists (pl n). split; [apply integer_partitions_ok; auto|]. rewrite (lists_parts_len n K Hn LP) in Hi. exact Hi. Qed.

Lemma numbering_stable qs n i0 : Forall legal_chq (qs ++ [ChAt n i0]) ->
  exists K, lists_parts n K /\ forall qs' i, Forall legal_chq qs' -> 0 <= i < Z.of_nat (length K) ->
    exists fs b f, chrun ((qs ++ [ChAt n i0]) ++ qs' ++ [ChAt n i]) [] = Ret (fs ++ [f], b) /\ character_of n (nth (Z.to_nat i) K []) f.
Proof.
  intros L. assert (legal_chq (ChAt n i0)) as Li by (apply Forall_app in L as (_ & L); inversion L; auto). pose proof (ch_at_n _ _ Li) as (Hn & _). assert (Forall legal_chq qs) as Lq by (apply Forall_app in L; tauto).
  set (K := insall (chkeys qs K0 n) (pl n)). pose proof (kok_keys qs K0 n Lq Hn (kok0 n)) as (N & I). assert (lists_parts n K) as LP by (apply insall_lists; auto). exists K. split; auto.
  intros qs' i L' Hi. pose proof (ch_at_legal n i K Hn LP Hi) as Ll. rewrite app_assoc. assert (Forall legal_chq (((qs ++ [ChAt n i0]) ++ qs') ++ [ChAt n i])) as LL by (rewrite !Forall_app; repeat split; auto).
  destruct (ch_last _ n i LL) as (fs & b & E). assert (chkeys ((qs ++ [ChAt n i0]) ++ qs') K0 n = K) as EK.
  { rewrite !chkeys_app. cbn [chkeys]. rewrite full_keys; auto; cbn [chupd]; rewrite Z.eqb_refl; auto. }
  rewrite EK in E. rewrite insall_full in E by (intros l Hl; apply LP; apply in_pl; auto). eexists fs, b, _. split; [exact E|]. apply chr_character; auto. apply LP. apply (znth_In K i []). auto.
Qed.

Definition asks (q : chq) : Z := match q with ChNew l => zsum l | ChOf n _ | ChAt n _ | ChNo n _ => n end.

Lemma numbering_fresh qs n i L : Forall legal_chq (qs ++ [ChAt n i]) -> (forall q, In q qs -> asks q <> n) -> integer_partitions n = Ret L ->
  exists fs b f, chrun (qs ++ [ChAt n i]) [] = Ret (fs ++ [f], b) /\ character_of n (nth (Z.to_nat i) L []) f.
Proof.
  intros Lq A EL. assert (legal_chq (ChAt n i)) as Li by (apply Forall_app in Lq as (_ & L'); inversion L'; auto). pose proof (ch_at_n _ _ Li) as (Hn & Hi). rewrite integer_partitions_ok in EL by auto. injection EL as <-.
  destruct (ch_last qs n i Lq) as (fs & b & E). assert (forall qs K, (forall q, In q qs -> asks q <> n) -> chkeys qs K n = K n) as Q.
  { clear. induction qs as [|q qs IH]; intros K H; cbn [chkeys]; auto. rewrite IH by (intros; apply H; right; auto). specialize (H q (or_introl eq_refl)). destruct q as [l|m l|m j|m j]; cbn [asks chupd] in *; [destruct (Z.eqb_spec n (zsum l))|destruct (Z.eqb_spec n m)|destruct (Z.eqb_spec n m)|destruct (Z.eqb_spec n m)]; auto; congruence. }
  rewrite Q, insall_nil in E by (auto; apply NoDup_plist). eexists fs, b, _. split; [exact E|]. apply chr_character; auto. apply (znth_pl n i); auto.
Qed.

Lemma character_of_inj n a b f : 1 <= n -> is_part n a -> is_part n b -> character_of n a f -> character_of n b f -> a = b.
Proof. intros Hn Pa Pb Ca Cb. apply (character_of_chr n) in Ca, Cb; auto. apply (chr_inj n); auto. congruence. Qed.

Lemma numbering_refuted : ~ (forall qs n i L fs f b, Forall legal_chq (qs ++ [ChAt n i]) -> integer_partitions n = Ret L -> chrun (qs ++ [ChAt n i]) [] = Ret (fs ++ [f], b) -> character_of n (nth (Z.to_nat i) L []) f).
Proof.
  intros H. assert (is_part 2 [1; 1]) as P by (apply decb_part; reflexivity). assert (is_part 2 [2]) as P2 by (apply decb_part; reflexivity). assert (Forall legal_chq ([ChNew [1; 1]] ++ [ChAt 2 0])) as L. { constructor; [exists 2; split; [lia|auto]|]. constructor; [|constructor]. split; [lia|]. exists [[2]; [1; 1]]. split; [reflexivity|cbn; lia]. }
  destruct (ch_last [ChNew [1; 1]] 2 0 L) as (fs & b & E). specialize (H _ _ _ _ _ _ _ L eq_refl E). change (nth (Z.to_nat 0) [[2]; [1; 1]] []) with [2] in H. apply (character_of_chr 2) in H; [|lia|auto].
  assert (znth (insall (chkeys [ChNew [1; 1]] K0 2) (pl 2)) 0 [] = [1; 1]) as Q by reflexivity. rewrite Q in H. apply chr_inj in H; auto; [discriminate|lia].
Qed.

Lemma character_no n i qs : Forall legal_chq qs -> 1 <= n -> exists fs b f, chrun (qs ++ [ChNo n i]) [] = Ret (fs ++ [f], b) /\ character_of n [n] f.
Proof.
  intros L Hn. destruct (chrun0 (qs ++ [ChNo n i])) as (b & E & _); [apply Forall_app; split; auto|]. rewrite chanss_app, map_app in E. eexists _, b, _. split; [exact E|]. apply chr_character; auto. apply is_part_row; auto.
Qed.

(* {n} is the first partition *)
Lemma plist_first n : 1 <= n -> znth (pl n) 0 [] = [n].
Proof.
  intros Hn. pose proof (plist_sorted (Z.to_nat (n - 1))) as S. assert (In [n] (pl n)) as I by (apply in_pl; auto; apply is_part_row; auto). assert (forall x, In x (pl n) -> is_part n x) as F by (intros x; apply in_pl; auto). destruct (pl n) as [|x X]; [destruct I|]. change (x = [n]). destruct I as [|I]; auto. exfalso. inversion S; subst. rewrite Forall_forall in H2. destruct (H2 _ I) as (i & Hi & R & E). pose proof (F x (or_introl eq_refl)) as Px. pose proof (is_part_ppos n x Px) as Pp. pose proof (is_part_sum n x Px) as Sm.
  destruct x as [|y x]; [cbn in Sm; lia|]. pose proof (ppos_inv _ _ Pp) as (Py & Pt). change (zsum (y :: x)) with (y + zsum x) in Sm. pose proof (zsum_ppos x Pt). destruct (Z.eq_dec i 0) as [->|]; [cbn in R; lia|]. specialize (E 0 ltac:(lia)). cbn in E. assert (zsum x = 0) as Sx by lia. destruct x as [|z x]; [rewrite (row_out [y]) in R by (unfold zlen; cbn; lia); rewrite (row_out [n]) in R by (unfold zlen; cbn; lia); lia|].
  pose proof (ppos_inv _ _ Pt) as (Pz & Pt'). pose proof (zsum_ppos x Pt'). change (zsum (z :: x)) with (z + zsum x) in Sx. lia.
Qed.

Lemma character_no_refuted n i l : 1 <= n -> integer_partitions n = Ret l -> 1 <= i < Z.of_nat (length l) -> ~ exists f b, chrun [ChNo n i] [] = Ret ([f], b) /\ character_of n (nth (Z.to_nat i) l []) f.
Proof.
  intros Hn EL Hi (f & b & E & C). rewrite integer_partitions_ok in EL by auto. injection EL as <-. destruct (character_no n i [] (Forall_nil _) Hn) as (fs & b' & f' & E' & C'). change ([] ++ [ChNo n i]) with [ChNo n i] in E'. rewrite E in E'. injection E' as E1 _. destruct fs as [|x fs]; [|destruct fs; discriminate]. injection E1 as <-.
  assert (0 <= i < zlen (pl n)) as Hi' by (unfold zlen; lia). pose proof (znth_pl n i Hn Hi') as Pi. pose proof (character_of_inj n _ _ f Hn Pi (is_part_row n Hn) C C') as Q.
  pose proof (plist_first n Hn) as Q0.
  assert (NoDup (pl n)) as N by apply NoDup_plist. apply (NoDup_nth (pl n) []) with (i := Z.to_nat i) (j := 0%nat) in N; try lia. unfold znth in Q0, Q. change (Z.to_nat 0) with 0%nat in Q0. congruence.
Qed.
