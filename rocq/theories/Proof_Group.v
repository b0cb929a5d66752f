(* Cyclic, dihedral and product groups (C51-C53). *)
From Coq Require Import ZArith List Bool Lia ZifyBool.
From Verif Require Import Model_Base Model_Group Spec_Group Proof_Base.
Import ListNotations.
Open Scope Z_scope.

Lemma cmod_pos a n : 0 < n -> 0 <= a -> cmod a n = Ret (a mod n).
Proof. intros. unfold cmod. replace (n =? 0) with false by lia. rewrite Z.rem_mod_nonneg by lia. reflexivity. Qed.

(* equal remainders *)
Lemma modeq a b n : 0 < n -> (exists k, a = b + k * n) -> a mod n = b mod n.
Proof. intros Hn (k & ->). apply Z.mod_add. lia. Qed.
Lemma mod_ex a n : 0 < n -> exists k, a mod n = a + k * n.
Proof. intros Hn. exists (- (a / n)). pose proof (Z.div_mod a n ltac:(lia)). lia. Qed.

(* ---- cyclic ---- *)
Lemma in_cyclic n x : in_group (cyclic n) x <-> c_n x = n /\ 0 <= c_i x < n.
Proof.
  unfold in_group. cbn [cyclic g_size g_element]. split.
  - intros (i & Hi & E). apply Ret_inj in E. subst x. auto.
  - destruct x as [m i]; cbn. intros (-> & Hi). exists i. auto.
Qed.

Lemma c_mul_ok n i j : 0 < n -> 0 <= i -> 0 <= j -> c_mul (mkC n i) (mkC n j) = Ret (mkC n ((i + j) mod n)).
Proof. intros. unfold c_mul; cbn [c_n c_i]. rewrite Z.eqb_refl. cbn [assert_ bind]. rewrite cmod_pos by lia. reflexivity. Qed.

Lemma c_inverse_ok n i : 0 < n -> 0 <= i < n -> c_inverse (mkC n i) = Ret (mkC n ((- i) mod n)).
Proof. intros. unfold c_inverse; cbn [c_n c_i]. rewrite cmod_pos by lia. cbn [bind]. do 2 f_equal. apply modeq; [lia|]. exists 1. lia. Qed.

Lemma cyclic_group n : 1 <= n -> is_group (cyclic n).
Proof.
  intros Hn. assert (forall a, 0 <= a mod n < n) as B by (intros; apply Z.mod_pos_bound; lia). constructor; cbn [cyclic g_size g_identity g_element g_mul g_inverse].
  - lia.
  - intros i Hi. eauto.
  - intros i j x _ _ E1 E2. congruence.
  - apply in_cyclic; cbn. lia.
  - intros [m i] [m' j] I J. apply in_cyclic in I, J. cbn in I, J. destruct I as (-> & I), J as (-> & J). eexists. split; [apply c_mul_ok; lia|]. apply in_cyclic; cbn. auto.
  - intros [m i] [m' j] [m'' k] u v I J K. apply in_cyclic in I, J, K. cbn in I, J, K. destruct I as (-> & I), J as (-> & J), K as (-> & K).
    rewrite !c_mul_ok by lia. intros E1 E2. apply Ret_inj in E1, E2. subst u v. rewrite !c_mul_ok by (try lia; apply B). do 2 f_equal. rewrite Z.add_mod_idemp_l, Z.add_mod_idemp_r by lia. f_equal. lia.
  - intros [m i] I. apply in_cyclic in I. cbn in I. destruct I as (-> & I). rewrite c_mul_ok by lia. rewrite Z.mod_small by lia. reflexivity.
  - intros [m i] I. apply in_cyclic in I. cbn in I. destruct I as (-> & I). rewrite c_mul_ok by lia. rewrite Z.mod_small by lia. do 2 f_equal. lia.
  - intros [m i] I. apply in_cyclic in I. cbn in I. destruct I as (-> & I). eexists. split; [apply c_inverse_ok; lia|]. split; [apply in_cyclic; cbn; auto|]. rewrite !c_mul_ok by (try lia; apply B).
    rewrite Z.add_mod_idemp_r, Z.add_mod_idemp_l by lia. rewrite Z.add_opp_diag_r, Z.add_opp_diag_l, Z.mod_0_l by lia. auto.
Qed.

Lemma cyclic_index n : index_of (cyclic n) cyc_index.
Proof. intros i x Hi E. cbn in E. apply Ret_inj in E. subst x. reflexivity. Qed.

(* product of elements number i and j *)
Lemma cyclic_table n i j x y : 1 <= n -> 0 <= i < n -> 0 <= j < n -> g_element (cyclic n) i = Ret x -> g_element (cyclic n) j = Ret y ->
  g_mul (cyclic n) x y = g_element (cyclic n) ((i + j) mod n) /\ g_inverse (cyclic n) x = g_element (cyclic n) ((- i) mod n).
Proof. intros Hn Hi Hj E1 E2. cbn in E1, E2. apply Ret_inj in E1, E2. subst x y. cbn [cyclic g_mul g_inverse g_element]. rewrite c_mul_ok, c_inverse_ok by lia. auto. Qed.

Lemma cyclic_mixed n m x y : n <> m -> in_group (cyclic n) x -> in_group (cyclic m) y -> g_mul (cyclic n) x y = Abort.
Proof. intros H I J. apply in_cyclic in I, J. destruct x, y; cbn in *. unfold c_mul; cbn. destruct I as (-> & _), J as (-> & _). replace (m =? n) with false by lia. reflexivity. Qed.

(* ---- dihedral ---- *)
Lemma in_dihedral n x : 1 <= n -> in_group (dihedral n) x <-> d_n x = n /\ 0 <= d_i x < n /\ (d_s x = 1 \/ d_s x = -1).
Proof.
  intros Hn. unfold in_group. cbn [dihedral g_size g_element]. split.
  - intros (i & Hi & E). apply Ret_inj in E. subst x. unfold dih_element. destruct (Z.ltb_spec i n); cbn; lia.
  - destruct x as [m i s]; cbn [d_n d_i d_s]. intros (-> & Hi & [-> | ->]).
    + exists i. split; [lia|]. unfold dih_element. destruct (Z.ltb_spec i n); [reflexivity|lia].
    + exists (i + n). split; [lia|]. unfold dih_element. destruct (Z.ltb_spec (i + n) n); [lia|]. do 2 f_equal. lia.
Qed.

Lemma d_mul_ok n i s j t : 0 < n -> 0 <= i < n -> 0 <= j < n -> (s = 1 \/ s = -1) -> d_mul (mkD n i s) (mkD n j t) = Ret (mkD n ((i + s * j) mod n) (s * t)).
Proof.
  intros Hn Hi Hj Hs. unfold d_mul; cbn [d_n d_i d_s]. rewrite Z.eqb_refl. cbn [assert_ bind]. rewrite cmod_pos by (destruct Hs; subst; lia). cbn [bind]. do 2 f_equal. apply modeq; [lia|]. exists 1. lia.
Qed.

Lemma d_inverse_ok n i s : 0 < n -> 0 <= i < n -> (s = 1 \/ s = -1) -> d_inverse (mkD n i s) = Ret (mkD n ((- (s * i)) mod n) s).
Proof.
  intros Hn Hi Hs. unfold d_inverse; cbn [d_n d_i d_s]. rewrite cmod_pos by (destruct Hs; subst; lia). cbn [bind]. do 2 f_equal. apply modeq; [lia|]. exists 1. destruct Hs; subst; lia.
Qed.

Ltac ind H := apply in_dihedral in H; [|lia]; cbn [d_n d_i d_s] in H; destruct H as (-> & ? & ?).

Lemma dihedral_group n : 1 <= n -> is_group (dihedral n).
Proof.
  intros Hn. assert (forall a, 0 <= a mod n < n) as B by (intros; apply Z.mod_pos_bound; lia). constructor; cbn [dihedral g_size g_identity g_element g_mul g_inverse].
  - lia.
  - intros i Hi. eauto.
  - intros i j x Hi Hj E1 E2. assert (dih_element n i = dih_element n j) as E by congruence. unfold dih_element in E. destruct (Z.ltb_spec i n), (Z.ltb_spec j n); try discriminate E; injection E; lia.
  - apply in_dihedral; cbn; lia.
  - intros [m i s] [m' j t] I J. ind I. ind J. eexists. split; [apply d_mul_ok; try lia; auto|]. apply in_dihedral; cbn; [lia|]. split; [auto|split; [apply B|]]. destruct H0, H2; subst; cbn; auto.
  - intros [m i s] [m' j t] [m'' k r] u v I J K. ind I. ind J. ind K.
    rewrite !d_mul_ok by (try lia; auto). intros E1 E2. apply Ret_inj in E1, E2. subst u v. rewrite !d_mul_ok by (first [lia|apply B|auto|idtac]; destruct H0, H2; subst; auto). f_equal. f_equal; [|lia].
    destruct (mod_ex (i + s * j) n ltac:(lia)) as (a & ->). destruct (mod_ex (j + t * k) n ltac:(lia)) as (b & ->). apply modeq; [lia|]. exists (a - s * b). lia.
  - intros [m i s] I. ind I. rewrite d_mul_ok by (try lia; auto). do 2 f_equal; [|lia]. rewrite Z.mod_small; lia.
  - intros [m i s] I. ind I. rewrite d_mul_ok by (try lia; auto). do 2 f_equal; [|lia]. rewrite Z.mod_small; lia.
  - intros [m i s] I. ind I. eexists. split; [apply d_inverse_ok; auto; lia|]. split; [apply in_dihedral; cbn; [lia|]; auto|]. rewrite !d_mul_ok by (first [lia|apply B|auto]).
    destruct (mod_ex (- (s * i)) n ltac:(lia)) as (a & ->). split; f_equal; (f_equal; [|destruct H0; subst; lia]); rewrite <- (Z.mod_0_l n) by lia; (apply modeq; [lia|]).
    + exists (s * a). destruct H0; subst; lia.
    + exists a. lia.
Qed.

Lemma dihedral_index n : index_of (dihedral n) (dih_index n) /\ forall i x, 0 <= i < g_size (dihedral n) -> g_element (dihedral n) i = Ret x -> d_index x = i.
Proof.
  split; intros i x Hi E; cbn [dihedral g_size g_element] in E, Hi; apply Ret_inj in E; subst x; unfold dih_index, d_index, dih_element; destruct (Z.ltb_spec i n); cbn; lia.
Qed.

Lemma dihedral_action n x y z v : 1 <= n -> in_group (dihedral n) x -> in_group (dihedral n) y -> g_mul (dihedral n) x y = Ret z ->
  corner n z v = corner n x (corner n y v).
Proof.
  intros Hn. destruct x as [m i s], y as [m' j t]. intros I J E. ind I. ind J. cbn [dihedral g_mul] in E. rewrite d_mul_ok in E by (auto; lia). apply Ret_inj in E. subst z.
  unfold corner; cbn [d_i d_s]. destruct (mod_ex (i + s * j) n ltac:(lia)) as (a & ->). destruct (mod_ex (j + t * v) n ltac:(lia)) as (b & ->). apply modeq; [lia|]. exists (a - s * b). lia.
Qed.

Lemma dihedral_faithful n x y : 3 <= n -> in_group (dihedral n) x -> in_group (dihedral n) y -> (forall v, 0 <= v < n -> corner n x v = corner n y v) -> x = y.
Proof.
  intros Hn. destruct x as [m i s], y as [m' j t]. intros I J E. ind I. ind J. pose proof (E 0 ltac:(lia)) as E0. pose proof (E 1 ltac:(lia)) as E1. unfold corner in E0, E1; cbn [d_i d_s] in E0, E1.
  rewrite !Z.mul_0_r, !Z.add_0_r, !Z.mod_small in E0 by lia. subst j. f_equal. rewrite !Z.mul_1_r in E1.
  destruct (mod_ex (i + s) n ltac:(lia)) as (a & A). destruct (mod_ex (i + t) n ltac:(lia)) as (b & B). rewrite A, B in E1. destruct H0, H2; subst; auto; exfalso; assert ((b - a) * n = 2 \/ (a - b) * n = 2) as [K|K] by lia; assert (Z.divide n 2) as D by (eexists; symmetry; exact K); apply Z.divide_pos_le in D; lia.
Qed.

Lemma dihedral_mixed n m x y : 1 <= n -> 1 <= m -> n <> m -> in_group (dihedral n) x -> in_group (dihedral m) y -> g_mul (dihedral n) x y = Abort.
Proof.
  intros Hn Hm H I J. apply in_dihedral in I; auto. apply in_dihedral in J; auto. destruct x, y; cbn in *. unfold d_mul; cbn. destruct I as (-> & _), J as (-> & _). replace (m =? n) with false by lia. reflexivity.
Qed.

(* r(i) and s() *)
Lemma dihedral_r n i : 1 <= n -> in_group (dihedral n) (dih_r n i) <-> 0 <= i < n.
Proof. intros Hn. rewrite in_dihedral by auto. cbn. lia. Qed.
Lemma dihedral_s n : 1 <= n -> in_group (dihedral n) (dih_s n) <-> 2 <= n.
Proof. intros Hn. rewrite in_dihedral by auto. cbn. lia. Qed.

Lemma dihedral_relations n i : 2 <= n -> 0 <= i < n ->
  d_mul (dih_s n) (dih_s n) = Ret (dih_r n 0) /\
  (u <- d_mul (dih_s n) (dih_r n i) ;; d_mul u (dih_s n)) = d_inverse (dih_r n i).
Proof.
  intros Hn Hi. unfold dih_s, dih_r. rewrite !d_mul_ok by lia. cbn [bind]. split.
  - reflexivity.
  - assert (0 <= (1 + -1 * i) mod n < n) by (apply Z.mod_pos_bound; lia). rewrite d_mul_ok, d_inverse_ok by lia. do 2 f_equal. destruct (mod_ex (1 + -1 * i) n ltac:(lia)) as (a & ->). apply modeq; [lia|]. exists a. lia.
Qed.

(* the rotation by the whole circle is taken for a reflection *)
Lemma dihedral_r_refuted n : 1 <= n -> exists y, g_element (dihedral n) (dih_index n (dih_r n n)) = Ret y /\ d_s y = -1.
Proof.
  intros Hn. eexists. split; [reflexivity|]. unfold dih_index, dih_r, dih_element; cbn. replace (n + n * 0) with n by lia. destruct (Z.ltb_spec n n); [lia|reflexivity].
Qed.

(* ---- products ---- *)
Section Product.
  Context {E1 E2 : Type} (g1 : gops E1) (g2 : gops E2).
  Hypothesis (H1 : is_group g1) (H2 : is_group g2).

  Lemma pr_number i : 0 <= i < g_size g1 * g_size g2 -> 0 <= i / g_size g2 < g_size g1 /\ 0 <= i mod g_size g2 < g_size g2 /\ i = i / g_size g2 * g_size g2 + i mod g_size g2.
  Proof.
    intros Hi. pose proof (gr_size g1 H1). pose proof (gr_size g2 H2). split; [split; [apply Z.div_pos; lia|apply Z.div_lt_upper_bound; lia]|]. split; [apply Z.mod_pos_bound; lia|]. pose proof (Z.div_mod i (g_size g2) ltac:(lia)). lia.
  Qed.

  Lemma pr_element_ok i a b : 0 <= i < g_size g1 * g_size g2 -> g_element g1 (i / g_size g2) = Ret a -> g_element g2 (i mod g_size g2) = Ret b -> pr_element g1 g2 i = Ret (a, b).
  Proof.
    intros Hi A B. pose proof (gr_size g2 H2). unfold pr_element, cdiv, cmod. replace (g_size g2 =? 0) with false by lia. cbn [bind]. rewrite Z.quot_div_nonneg, Z.rem_mod_nonneg by lia. rewrite A. cbn [bind]. rewrite B. reflexivity.
  Qed.

  Lemma in_product x y : in_group (product g1 g2) (x, y) <-> in_group g1 x /\ in_group g2 y.
  Proof.
    pose proof (gr_size g1 H1). pose proof (gr_size g2 H2). split.
    - intros (i & Hi & E). cbn [product g_size g_element] in Hi, E. destruct (pr_number i Hi) as (A & B & C). destruct (gr_element g1 H1 _ A) as (a & Ea). destruct (gr_element g2 H2 _ B) as (b & Eb).
      rewrite (pr_element_ok i a b) in E by auto. apply Ret_inj in E. injection E as <- <-. split; eexists; split; eauto.
    - intros ((i & Hi & Ei) & (j & Hj & Ej)). exists (i * g_size g2 + j). cbn [product g_size g_element]. assert ((i * g_size g2 + j) / g_size g2 = i) as D by (rewrite Z.div_add_l, Z.div_small by lia; lia).
      assert ((i * g_size g2 + j) mod g_size g2 = j) as M by (rewrite Z.add_comm, Z.mod_add, Z.mod_small by lia; lia). split; [nia|]. apply pr_element_ok; [nia|rewrite D; auto|rewrite M; auto].
  Qed.

  Lemma product_group : is_group (product g1 g2).
  Proof.
    pose proof (gr_size g1 H1) as S1. pose proof (gr_size g2 H2) as S2. constructor.
    - cbn. nia.
    - intros i Hi. cbn [product g_size g_element] in *. destruct (pr_number i Hi) as (A & B & C). destruct (gr_element g1 H1 _ A) as (a & Ea). destruct (gr_element g2 H2 _ B) as (b & Eb). eexists. apply pr_element_ok; eauto.
    - intros i j x Hi Hj. cbn [product g_size g_element] in *. destruct (pr_number i Hi) as (A & B & C). destruct (gr_element g1 H1 _ A) as (a & Ea). destruct (gr_element g2 H2 _ B) as (b & Eb).
      destruct (pr_number j Hj) as (A' & B' & C'). destruct (gr_element g1 H1 _ A') as (a' & Ea'). destruct (gr_element g2 H2 _ B') as (b' & Eb'). rewrite (pr_element_ok i a b), (pr_element_ok j a' b') by auto.
      intros Q1 Q2. apply Ret_inj in Q1, Q2. subst x. injection Q2 as -> ->. rewrite C, C'. f_equal; [f_equal|]; [eapply (gr_distinct g1 H1)|eapply (gr_distinct g2 H2)]; eauto.
    - apply in_product. split; apply gr_identity; auto.
    - intros [x y] [x' y'] I J. apply in_product in I as (I1 & I2). apply in_product in J as (J1 & J2). cbn [product g_mul]. unfold pr_mul; cbn [fst snd].
      destruct (gr_closed g1 H1 _ _ I1 J1) as (a & -> & A). destruct (gr_closed g2 H2 _ _ I2 J2) as (b & -> & B). cbn [bind]. eexists. split; [reflexivity|]. apply in_product. auto.
    - intros [x y] [x' y'] [x'' y''] u v I J K. apply in_product in I as (I1 & I2). apply in_product in J as (J1 & J2). apply in_product in K as (K1 & K2). cbn [product g_mul]. unfold pr_mul; cbn [fst snd].
      destruct (gr_closed g1 H1 _ _ I1 J1) as (a & Ea & A). destruct (gr_closed g2 H2 _ _ I2 J2) as (b & Eb & B). destruct (gr_closed g1 H1 _ _ J1 K1) as (c & Ec & C). destruct (gr_closed g2 H2 _ _ J2 K2) as (d & Ed & D).
      rewrite Ea, Eb, Ec, Ed. cbn [bind]. intros Q1 Q2. apply Ret_inj in Q1, Q2. subst u v. cbn [fst snd]. rewrite (gr_assoc g1 H1 x x' x'' a c), (gr_assoc g2 H2 y y' y'' b d) by auto. reflexivity.
    - intros [x y] I. apply in_product in I as (I1 & I2). cbn [product g_mul g_identity]. unfold pr_mul; cbn [fst snd]. rewrite (gr_id_l g1 H1), (gr_id_l g2 H2) by auto. reflexivity.
    - intros [x y] I. apply in_product in I as (I1 & I2). cbn [product g_mul g_identity]. unfold pr_mul; cbn [fst snd]. rewrite (gr_id_r g1 H1), (gr_id_r g2 H2) by auto. reflexivity.
    - intros [x y] I. apply in_product in I as (I1 & I2). destruct (gr_inv g1 H1 _ I1) as (a & Ea & A & A1 & A2). destruct (gr_inv g2 H2 _ I2) as (b & Eb & B & B1 & B2). exists (a, b). cbn [product g_mul g_identity g_inverse]. unfold pr_inverse, pr_mul; cbn [fst snd].
      rewrite Ea, Eb. cbn [bind]. rewrite A1, A2, B1, B2. split; auto. split; [apply in_product; auto|]. auto.
  Qed.

  (* every pair of elements has exactly one number, and the product is taken componentwise *)
  Lemma product_pairs : (forall x y, in_group g1 x -> in_group g2 y -> exists i, 0 <= i < g_size g1 * g_size g2 /\ g_element (product g1 g2) i = Ret (x, y) /\ forall j, 0 <= j < g_size g1 * g_size g2 -> g_element (product g1 g2) j = Ret (x, y) -> j = i) /\
    (forall x y x' y' a b, g_mul g1 x x' = Ret a -> g_mul g2 y y' = Ret b -> g_mul (product g1 g2) (x, y) (x', y') = Ret (a, b)) /\
    (forall x y a b, g_inverse g1 x = Ret a -> g_inverse g2 y = Ret b -> g_inverse (product g1 g2) (x, y) = Ret (a, b)).
  Proof.
    split; [|split].
    - intros x y I J. destruct (proj2 (in_product x y) (conj I J)) as (i & Hi & Ei). exists i. cbn [product g_size] in Hi. split; auto. split; auto. intros j Hj Ej. apply (gr_distinct _ product_group j i (x, y)); auto.
    - intros. cbn [product g_mul]. unfold pr_mul; cbn [fst snd]. rewrite H, H0. reflexivity.
    - intros. cbn [product g_inverse]. unfold pr_inverse; cbn [fst snd]. rewrite H, H0. reflexivity.
  Qed.
End Product.
