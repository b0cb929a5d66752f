(* Statements about the trivial irrep, the sign and transposed shapes. *)
From Coq Require Import ZArith List Bool Lia ZifyBool Reals Lra Permutation.
From Verif Require Import Model_Base Model_Perm Model_Sn Model_Part Model_Comb Model_Tab Model_Irrep Model_Type Model_Char Model_CG.
From Verif Require Import Spec_Perm Spec_Part Spec_Tab Spec_Rep Spec_Four Spec_Type Spec_CG Spec_Char Spec_Sign.
From Verif Require Import Proof_Base Proof_Perm Proof_Sn Proof_Part Proof_PartProps Proof_Tab Proof_TabProps Proof_Cycles Proof_Cox Proof_Yor Proof_Sum Proof_Irrep Proof_Rep Proof_Mat Proof_IrrepProps Proof_JM Proof_Conn Proof_Schur Proof_Restr Proof_UpDown Proof_Complete Proof_Char Proof_CharBank Proof_Type Proof_Rept Proof_FFTmath Proof_Kron Proof_CG Proof_CGdown Proof_CGvec1 Proof_CGvec2 Proof_Float4 Proof_Triv Proof_Sign1 Proof_Sign2 Proof_Sign3.
Import ListNotations.
Open Scope Z_scope.

Lemma irr_is n l o : 1 <= n -> is_part n l -> irr_new l = Ret o -> o = mkirr n l.
Proof. intros Hn P E. destruct (mkirr_ok n l P Hn) as (E' & _). rewrite E' in E. apply Ret_inj in E. auto. Qed.

Lemma sign_product n p q : is_perm n p -> is_perm n q -> sign (pmul p q) = sign p * sign q.
Proof.
  intros Pp Pq. pose proof (is_perm_nonneg _ _ Pp) as Hn. destruct (Z.eq_dec n 0) as [->|N].
  - destruct p; [|destruct Pp as (L & _); cbn in L; lia]. destruct q; [|destruct Pq as (L & _); cbn in L; lia]. reflexivity.
  - assert (1 <= n) as Hn' by lia. apply eq_IZR. rewrite mult_IZR. pose proof (is_part_row n Hn') as P. set (l := transposed [n]). pose proof (is_part_transposed n [n] P) as P'. fold l in P'.
    assert (dd n l = 1) as D. { unfold l. rewrite dd_transposed by auto. apply (one_tab n [n] 1 Hn' P). intros; eapply del_row; eauto. }
    assert (forall r, is_perm n r -> rr n l r 0 0 = IZR (sign r)) as K. { intros r Pr. pose proof (chi_transposed n [n] r Hn' P Pr) as C. rewrite chi_row in C by auto. unfold chi, trace in C. fold l in C. rewrite D, rsum_one in C. lra. }
    rewrite <- (K (pmul p q)), <- (K p), <- (K q) by (auto; apply is_perm_pmul; auto). rewrite (rr_mul n Hn' l) by (auto; rewrite D; lia). rewrite D, rsum_one. auto.
Qed.

Lemma transposed_row n : 1 <= n -> transposed [n] = column n.
Proof.
  intros Hn. unfold transposed, column. change (row [n] 0) with n. rewrite <- (Nat2Z.id (Z.to_nat n)) at 1. assert (forall k a, (forall j, (a <= j < a + k)%nat -> Z.of_nat j < n) -> map (fun c => Z.of_nat (length (filter (fun x => Z.of_nat c <? x) [n]))) (seq a k) = repeat 1 k) as K.
  { induction k as [|k IH]; intros a H; auto. cbn [seq map repeat filter]. assert ((Z.of_nat a <? n) = true) as -> by (specialize (H a); lia). f_equal. apply IH. intros; apply H; lia. }
  rewrite Nat2Z.id. apply K. intros. lia.
Qed.

Lemma is_part_column n : 1 <= n -> is_part n (column n).
Proof. apply is_part_ones. Qed.

Lemma chi_column n p : 1 <= n -> is_perm n p -> chi n (column n) p = IZR (sign p).
Proof. intros Hn Pp. rewrite <- transposed_row by auto. rewrite chi_transposed, chi_row by (auto; apply is_part_row; auto). ring. Qed.

Lemma dd_row n : 1 <= n -> dd n [n] = 1.
Proof. intros Hn. apply (one_tab n [n] 1 Hn (is_part_row n Hn)). intros; eapply del_row; eauto. Qed.
Lemma dd_column n : 1 <= n -> dd n (column n) = 1.
Proof. intros Hn. rewrite <- transposed_row, dd_transposed by (auto; apply is_part_row; auto). apply dd_row; auto. Qed.

Lemma one_dim n l o p x : 1 <= n -> is_part n l -> irr_new l = Ret o -> is_perm n p -> dd n l = 1 -> chi n l p = x -> io_d o = 1 /\ exists M, irr_matrix o p = Ret M /\ m_at M 0 0 = x.
Proof.
  intros Hn P E Pp D C. rewrite (irr_is n l o Hn P E). split; [exact D|]. destruct (mkirr_ok n l P Hn) as (_ & G). destruct (matrix_ok n l _ G p Pp) as (M & EM & _ & _ & A). exists M. split; auto.
  rewrite A by (change (io_d (mkirr n l)) with (dd n l); lia). rewrite <- C. unfold chi, trace. rewrite D, rsum_one. auto.
Qed.

Lemma trivial_matrix n o p : 1 <= n -> irr_new [n] = Ret o -> is_perm n p -> io_d o = 1 /\ exists M, irr_matrix o p = Ret M /\ m_at M 0 0 = 1%R.
Proof. intros Hn E Pp. apply (one_dim n [n]); auto; [apply is_part_row; auto|apply dd_row; auto|apply chi_row; auto]. Qed.
Lemma sign_matrix n o p : 1 <= n -> irr_new (column n) = Ret o -> is_perm n p -> io_d o = 1 /\ exists M, irr_matrix o p = Ret M /\ m_at M 0 0 = IZR (sign p).
Proof. intros Hn E Pp. apply (one_dim n (column n)); auto; [apply is_part_column; auto|apply dd_column; auto|apply chi_column; auto]. Qed.

Lemma sign_rep n mu : 1 <= n -> is_part n mu -> sign (rep_of n mu) = (-1) ^ (n - zlen mu).
Proof.
  intros Hn P. unfold rep_of. rewrite sign_pw; [|lia|].
  - rewrite cw_len by (eapply is_part_ppos; eauto). rewrite (is_part_sum n mu P). auto.
  - intros j Hj. apply (in_cw n mu 1 j); auto; [lia|eapply is_part_ppos; eauto|]. rewrite (is_part_sum n mu P). lia.
Qed.

Lemma sign_cycle_type n p mu : 1 <= n -> is_part n mu -> cycle_type n p mu -> sign p = (-1) ^ (n - zlen mu).
Proof.
  intros Hn Pm T. rewrite <- sign_rep by auto. apply eq_IZR. rewrite <- (chi_column n p) by (auto; apply T). rewrite (chi_type n (column n) mu p) by (auto; apply is_part_column; auto). unfold cval. apply chi_column; auto. apply rep_of_perm; auto.
Qed.

Lemma sign_characters n mu o o' : 1 <= n -> is_part n mu -> irr_new [n] = Ret o -> irr_new (column n) = Ret o' ->
  irr_character o mu = Ret 1%R /\ irr_character o' mu = Ret (IZR ((-1) ^ (n - zlen mu))).
Proof.
  intros Hn Pm E E'. rewrite (irr_is n _ _ Hn (is_part_row n Hn) E), (irr_is n _ _ Hn (is_part_column n Hn) E'). rewrite !irr_character_val by (auto; try apply is_part_row; try apply is_part_column; auto).
  unfold cval. rewrite chi_row, chi_column, sign_rep by (auto; apply rep_of_perm; auto). auto.
Qed.

Lemma transposed_irrep n l o o' : 1 <= n -> is_part n l -> irr_new l = Ret o -> irr_new (transposed l) = Ret o' ->
  io_d o' = io_d o /\ (forall mu x, is_part n mu -> irr_character o mu = Ret x -> irr_character o' mu = Ret (IZR ((-1) ^ (n - zlen mu)) * x)%R) /\
  (forall p x, is_perm n p -> irrep_trace l p x -> irrep_trace (transposed l) p (IZR (sign p) * x)%R).
Proof.
  intros Hn P E E'. pose proof (is_part_transposed n l P) as P'. rewrite (irr_is n _ _ Hn P E), (irr_is n _ _ Hn P' E'). split; [apply (dd_transposed n l Hn P)|]. split.
  - intros mu x Pm. rewrite !irr_character_val by auto. intros H. apply Ret_inj in H. subst x. unfold cval. pose proof (rep_of_perm n mu Hn Pm). rewrite chi_transposed, sign_rep by auto. auto.
  - intros p x Pp H. apply (irrep_trace_chi n l p) in H; auto. subst. apply (irrep_trace_chi n); auto. symmetry. apply chi_transposed; auto.
Qed.

(* an entry of the matrix of the transposed shape is, up to sign, one of the matrix *)
Lemma transposed_matrix n l o o' : 1 <= n -> is_part n l -> irr_new l = Ret o -> irr_new (transposed l) = Ret o' ->
  exists (place : Z -> Z) (eps : Z -> R),
    (forall i, 0 <= i < io_d o -> 0 <= place i < io_d o' /\ (eps i = 1 \/ eps i = -1)%R) /\ (forall i j, 0 <= i < io_d o -> 0 <= j < io_d o -> place i = place j -> i = j) /\
    forall p, is_perm n p -> exists M M', irr_matrix o p = Ret M /\ irr_matrix o' p = Ret M' /\
      forall i j, 0 <= i < io_d o -> 0 <= j < io_d o -> m_at M' (place i) (place j) = (IZR (sign p) * (eps i * eps j) * m_at M i j)%R.
Proof.
  intros Hn P E E'. pose proof (is_part_transposed n l P) as P'. rewrite (irr_is n _ _ Hn P E), (irr_is n _ _ Hn P' E'). destruct (mkirr_ok n l P Hn) as (_ & G). destruct (mkirr_ok n _ P' Hn) as (_ & G').
  exists (tix n l), (fun i => tsg (tb (mkirr n l) i)). split; [|split].
  - intros i Hi. split; [apply (tix_ok n l P Hn i Hi)|]. unfold tsg, sign. destruct (Nat.even _); auto.
  - intros i j Hi Hj. apply (tix_inj n l P Hn); auto.
  - intros p Pp. destruct (matrix_ok n l _ G p Pp) as (M & EM & _ & _ & A). destruct (matrix_ok n _ _ G' p Pp) as (M' & EM' & _ & _ & A'). exists M, M'. split; auto. split; auto. intros i j Hi Hj.
    rewrite A by auto. rewrite A' by (apply (tix_ok n l P Hn); auto). apply (rr_twist n l P Hn p i j Pp Hi Hj).
Qed.

(* ---- multiplicities ---- *)
Lemma kron_tr2 n a b c : 1 <= n -> is_part n a -> is_part n b -> is_part n c -> kron n (transposed a) (transposed b) c = kron n a b c.
Proof.
  intros Hn Pa Pb Pc. unfold kron. f_equal. apply lsum_ext. intros p Hp. apply (all_perms_lists n ltac:(lia)) in Hp. rewrite !chi_transposed by auto.
  replace (IZR (sign p) * chi n a p * (IZR (sign p) * chi n b p) * chi n c p)%R with (IZR (sign p * sign p) * (chi n a p * chi n b p * chi n c p))%R by (rewrite mult_IZR; ring). rewrite sign_sq. ring.
Qed.

Lemma mult_transposed n a b c m : 1 <= n -> is_part n a -> is_part n b -> is_part n c -> (cg_mult n (transposed a) (transposed b) c m <-> cg_mult n a b c m).
Proof.
  intros Hn Pa Pb Pc. pose proof (is_part_transposed n a Pa). pose proof (is_part_transposed n b Pb). rewrite !cg_mult_kz by auto. unfold kz. rewrite kron_tr2 by auto. tauto.
Qed.

Lemma mult_with_sign n a b : 1 <= n -> is_part n a -> is_part n b -> cg_mult n (column n) a b (if list_eq_dec Z.eq_dec (transposed a) b then 1 else 0).
Proof.
  intros Hn Pa Pb. rewrite <- transposed_row by auto. rewrite <- (transposed_twice n a Pa) at 1. pose proof (is_part_transposed n a Pa) as Pa'. apply mult_transposed; auto; [apply is_part_row; auto|]. apply mult_with_trivial; auto.
Qed.

Lemma single_type n t a : type_of n t -> is_part n a -> (forall c, is_part n c -> mult t c = if list_eq_dec Z.eq_dec a c then 1 else 0) -> (forall c, In c (map fst t) <-> is_part n c /\ 0 < mult t c) -> t = [(a, 1)].
Proof.
  intros T Pa M S. pose proof (type_nodup n t T) as N. assert (forall c, In c (map fst t) <-> c = a) as I.
  { intros c. rewrite S. split.
    - intros (Pc & H). rewrite M in H by auto. destruct (list_eq_dec Z.eq_dec a c); [auto|lia].
    - intros ->. split; auto. rewrite M by auto. destruct (list_eq_dec Z.eq_dec a a); [lia|congruence]. }
  destruct t as [|(c, k) t]; [exfalso; apply (proj2 (I a) eq_refl)|]. assert (c = a) as -> by (apply I; left; auto).
  destruct t as [|(c, k') t].
  - specialize (M a Pa). rewrite <- (msum_mult [(a, k)]) in M by auto. destruct (list_eq_dec Z.eq_dec a a); [|congruence]. revert M. unfold msum. cbn. destruct (pdec a a); [|congruence]. intros. do 2 f_equal. lia.
  - exfalso. cbn [map fst] in N. inversion N as [|? ? N1 N2]; subst. apply N1. left. apply I. right; left; auto.
Qed.

Lemma product_with n a b x : 1 <= n -> is_part n a -> is_part n x -> is_part n b -> (forall c, is_part n c -> cg_mult n x a c (if list_eq_dec Z.eq_dec b c then 1 else 0)) ->
  forall qs, Forall legal_cgq qs -> exists aa s, cgrun (qs ++ [GProd x a]) cg0 = Ret (aa ++ [AType [(b, 1)]], s).
Proof.
  intros Hn Pa Px Pb H qs L. destruct (prod_statement n x a Hn Px Pa) as (t & T & M & S & K). assert (t = [(b, 1)]) as <-; [|apply K; auto].
  apply (single_type n); auto. intros c Pc. specialize (M c Pc). specialize (H c Pc). apply cg_mult_kz in M, H; auto. congruence.
Qed.

Lemma product_with_trivial n a qs : 1 <= n -> is_part n a -> Forall legal_cgq qs -> exists aa s, cgrun (qs ++ [GProd [n] a]) cg0 = Ret (aa ++ [AType [(a, 1)]], s).
Proof. intros Hn Pa L. apply (product_with n a a [n]); auto; [apply is_part_row; auto|]. intros c Pc. apply mult_with_trivial; auto. Qed.
Lemma product_with_sign n a qs : 1 <= n -> is_part n a -> Forall legal_cgq qs -> exists aa s, cgrun (qs ++ [GProd (column n) a]) cg0 = Ret (aa ++ [AType [(transposed a, 1)]], s).
Proof. intros Hn Pa L. apply (product_with n a (transposed a) (column n)); auto; [apply is_part_column; auto|apply is_part_transposed; auto|]. intros c Pc. apply mult_with_sign; auto. Qed.

Lemma sign_composition n p q r : is_perm n p -> is_perm n q -> is_perm n r -> (forall i, 1 <= i <= n -> img r i = img p (img q i)) -> sign r = sign p * sign q.
Proof.
  intros Pp Pq Pr H. rewrite <- (sign_product n p q Pp Pq). f_equal. apply (perm_ext n); [apply is_perm_len; auto|apply is_perm_len, is_perm_pmul; auto|]. intros i Hi. rewrite H by auto. symmetry. apply img_pmul. rewrite (is_perm_len _ _ Pq). auto.
Qed.
