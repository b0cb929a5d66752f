(* Schur orthogonality (C38). *)
From Coq Require Import ZArith List Bool Lia ZifyBool ZifyNat Reals Lra Permutation.
From Verif Require Import Model_Base Model_Perm Model_Sn Model_Part Model_Comb Model_Tab Model_Irrep.
From Verif Require Import Spec_Perm Spec_Part Spec_Tab Spec_Rep Spec_Four.
From Verif Require Import Proof_Base Proof_Perm Proof_Sn Proof_Part Proof_PartProps Proof_Tab Proof_TabProps Proof_Cycles Proof_Cox Proof_Yor Proof_Sum
  Proof_Irrep Proof_Rep Proof_Mat Proof_IrrepProps Proof_JM Proof_Conn.
Import ListNotations.
Open Scope Z_scope.

Definition all_perms (n : Z) : list (list Z) := map (elt (Z.to_nat n)) (zrange 0 (zfact n)).

Lemma zfact_zfactn n : 0 <= n -> zfact n = zfactn (Z.to_nat n).
Proof. reflexivity. Qed.

Lemma all_perms_lists n : 0 <= n -> lists_Sn n (all_perms n).
Proof.
  intros Hn. split.
  - unfold all_perms. apply NoDup_map_inj_in; [|apply NoDup_zrange]. intros x y Hx Hy E. apply in_zrange in Hx, Hy.
    rewrite <- (idn_elt (Z.to_nat n) x), <- (idn_elt (Z.to_nat n) y), E; auto.
  - intros p. unfold all_perms. rewrite in_map_iff. split.
    + intros (x & <- & _). replace n with (Z.of_nat (Z.to_nat n)) at 1 by lia. apply is_perm_elt.
    + intros P. replace n with (Z.of_nat (Z.to_nat n)) in P by lia. exists (idn (Z.to_nat n) p). split; [apply elt_idn; auto|].
      apply in_zrange. apply idn_bound; auto.
Qed.

Lemma lists_Sn_Permutation n L L' : lists_Sn n L -> lists_Sn n L' -> Permutation L L'.
Proof. intros (A & B) (A' & B'). apply NoDup_Permutation; auto. intros p. rewrite B, B'. reflexivity. Qed.

Lemma lists_Sn_len n L : 0 <= n -> lists_Sn n L -> zlen L = zfact n.
Proof.
  intros Hn H. unfold zlen. rewrite (Permutation_length (lists_Sn_Permutation _ _ _ H (all_perms_lists n Hn))). unfold all_perms. rewrite map_length.
  change (Z.of_nat (length (zrange 0 (zfact n)))) with (zlen (zrange 0 (zfact n))). rewrite zlen_zrange. pose proof (zfact_pos n). lia.
Qed.

(* reindexing sums over the group *)
Section Group.
  Variables (n : Z) (L : list (list Z)).
  Hypothesis HL : lists_Sn n L.

  Lemma sum_left (tau : list Z) f : is_perm n tau -> lsum L (fun p => f (pmul tau p)) = lsum L f.
  Proof.
    intros T. destruct HL as (N & I). apply (lsum_reindex L (pmul tau) f N).
    - intros p Hp. apply I. apply (is_perm_pmul n); auto. apply I; auto.
    - intros p q Hp Hq E. apply I in Hp, Hq. pose proof (is_perm_pinv n tau T) as Ti.
      rewrite <- (pmul_pid_l n p), <- (pmul_pid_l n q) by auto. rewrite <- (pmul_pinv_l n tau T). rewrite !(pmul_assoc n) by auto. rewrite E. reflexivity.
  Qed.

  Lemma sum_right (tau : list Z) f : is_perm n tau -> lsum L (fun p => f (pmul p tau)) = lsum L f.
  Proof.
    intros T. destruct HL as (N & I). apply (lsum_reindex L (fun p => pmul p tau) f N).
    - intros p Hp. apply I. apply (is_perm_pmul n); auto. apply I; auto.
    - intros p q Hp Hq E. apply I in Hp, Hq. pose proof (is_perm_pinv n tau T) as Ti.
      rewrite <- (pmul_pid_r n p), <- (pmul_pid_r n q) by auto. rewrite <- (pmul_pinv_r n tau T). rewrite <- !(pmul_assoc n) by auto. rewrite E. reflexivity.
  Qed.

  Lemma sum_inv f : lsum L (fun p => f (pinv p)) = lsum L f.
  Proof.
    destruct HL as (N & I). apply (lsum_reindex L pinv f N).
    - intros p Hp. apply I. apply is_perm_pinv. apply I; auto.
    - intros p q Hp Hq E. apply I in Hp, Hq. pose proof (is_perm_pinv n q Hq) as Qi. pose proof (is_perm_pinv n p Hp) as Pi.
      rewrite <- (pmul_pid_r n p) by auto. rewrite <- (pmul_pinv_l n q Hq), <- E, <- (pmul_assoc n), (pmul_pinv_r n), (pmul_pid_l n) by auto. reflexivity.
  Qed.
End Group.

Section Schur.
  Variables (n : Z) (l : list Z) (o : irr) (l' : list Z) (o' : irr) (L : list (list Z)).
  Hypothesis Hn : 1 <= n.
  Hypothesis G : good n l o.
  Hypothesis G' : good n l' o'.
  Hypothesis HL : lists_Sn n L.

  Definition mm (i j k m : Z) : R := lsum L (fun p => (rho n o p i j * rho n o' p k m)%R).

  Lemma mm_left tau i j k m : is_perm n tau -> 0 <= i < io_d o -> 0 <= k < io_d o' -> 
    rsum (io_d o) (fun a => (rho n o tau i a * mm a j k m)%R) = rsum (io_d o') (fun b => (rho n o' tau b k * mm i j b m)%R).
  Proof.
    intros T Hi Hk. unfold mm. rewrite !rsum_lsum. pose proof (is_perm_pinv n tau T) as Ti.
    rewrite (lsum_ext _ _ (fun a => lsum L (fun p => (rho n o tau i a * (rho n o p a j * rho n o' p k m))%R))) by (intros; rewrite lsum_scal; reflexivity).
    rewrite lsum_swap.
    rewrite (lsum_ext L _ (fun p => (rho n o (pmul tau p) i j * rho n o' (pmul (pinv tau) (pmul tau p)) k m)%R)).
    2:{ intros p Hp. apply HL in Hp. rewrite <- (pmul_assoc n) by auto. rewrite (pmul_pinv_l n), (pmul_pid_l n) by auto.
        rewrite (rho_mul n l o G) by auto. unfold mprod. rewrite rsum_lsum, <- lsum_scal_r. apply lsum_ext. intros; ring. }
    rewrite (sum_left n L HL tau (fun p => (rho n o p i j * rho n o' (pmul (pinv tau) p) k m)%R) T).
    rewrite (lsum_ext _ _ (fun b => lsum L (fun p => (rho n o' tau b k * (rho n o p i j * rho n o' p b m))%R))) by (intros; rewrite lsum_scal; reflexivity).
    rewrite lsum_swap. apply lsum_ext. intros p Hp. apply HL in Hp. rewrite (rho_mul n l' o' G') by auto. unfold mprod. rewrite rsum_lsum, <- lsum_scal.
    apply lsum_ext. intros b Hb. apply in_zrange in Hb. rewrite (rho_inv n l' o' G') by auto. ring.
  Qed.

  (* the two Jucys-Murphy eigenvalues agree on the support *)
  Lemma mm_content v i j k m : 1 <= v <= n -> 0 <= i < io_d o -> 0 <= k < io_d o' ->
    (IZR (cont (tb o i) v) * mm i j k m = IZR (cont (tb o' k) v) * mm i j k m)%R.
  Proof.
    intros Hv Hi Hk.
    assert (lsum (zrange 1 v) (fun x => rsum (io_d o) (fun a => (rho n o (ptransp n x v) i a * mm a j k m)%R)) =
            lsum (zrange 1 v) (fun x => rsum (io_d o') (fun b => (rho n o' (ptransp n x v) b k * mm i j b m)%R))) as E.
    { apply lsum_ext. intros x Hx. apply in_zrange in Hx. apply mm_left; auto. apply is_perm_ptransp; lia. }
    rewrite !(lsum_ext (zrange 1 v) (fun x => rsum _ _) (fun x => lsum _ _) (fun x _ => rsum_lsum _ _)) in E. rewrite !(lsum_swap (zrange 1 v)) in E.
    rewrite (lsum_ext (zrange 0 (io_d o)) _ (fun a => (IZR (cont (tb o i) v) * mm a j k m * delta a i)%R)) in E.
    2:{ intros a Ha. apply in_zrange in Ha. rewrite lsum_scal_r, (jm_entry n l o G) by (auto; lia). unfold delta. destruct (Z.eq_dec i a), (Z.eq_dec a i); try congruence; ring. }
    rewrite (lsum_ext (zrange 0 (io_d o')) _ (fun b => (IZR (cont (tb o' k) v) * mm i j b m * delta b k)%R)) in E.
    2:{ intros b Hb. apply in_zrange in Hb. rewrite lsum_scal_r, (jm_entry n l' o' G') by (auto; lia). unfold delta. destruct (Z.eq_dec b k); [subst; ring|ring]. }
    rewrite <- !rsum_lsum in E. rewrite !rsum_delta in E by auto. exact E.
  Qed.

  Lemma mm_zero i j k m : 0 <= i < io_d o -> 0 <= k < io_d o' -> ~ (l = l' /\ tb o i = tb o' k) -> mm i j k m = 0%R.
  Proof.
    intros Hi Hk H. assert (forall v, 1 <= v <= n -> cont (tb o i) v = cont (tb o' k) v \/ mm i j k m = 0%R) as D.
    { intros v Hv. pose proof (mm_content v i j k m Hv Hi Hk) as E. destruct (Z.eq_dec (cont (tb o i) v) (cont (tb o' k) v)) as [|Ne]; auto. right.
      assert (IZR (cont (tb o i) v) - IZR (cont (tb o' k) v) <> 0)%R as Nz by (rewrite <- minus_IZR; apply not_0_IZR; lia).
      apply (Rmult_eq_reg_l (IZR (cont (tb o i) v) - IZR (cont (tb o' k) v))); auto. lra. }
    destruct (Req_dec (mm i j k m) 0) as [|Ne]; auto. exfalso. apply H.
    pose proof (proj1 G) as P. pose proof (proj1 G') as P'.
    apply (contents_determine (Z.to_nat n)); try replace (Z.of_nat (Z.to_nat n)) with n by lia; auto.
    - apply (tb_standard n l o i G Hi).
    - apply (tb_standard n l' o' k G' Hk).
    - intros v Hv. destruct (D v Hv); auto. contradiction.
  Qed.
End Schur.

Lemma Sd_nz z : z <> 0 -> z <> 1 -> z <> -1 -> Sd z <> 0%R.
Proof.
  intros A B C E. assert (z * z <> 0) as Nz by lia. pose proof (Sd_sq z A) as Q. rewrite E in Q. unfold Dd in Q.
  assert (IZR z <> 0)%R as Nr by (apply not_0_IZR; auto).
  assert (IZR z * IZR z = 1)%R as K.
  { apply (Rmult_eq_reg_l (/ IZR z * / IZR z)); [|apply Rmult_integral_contrapositive_currified; apply Rinv_neq_0_compat; auto].
    transitivity 1%R; [field; auto|]. lra. }
  rewrite <- mult_IZR in K. apply eq_IZR in K. nia.
Qed.

Section Diagonal.
  Variables (n : Z) (l : list Z) (o : irr) (L : list (list Z)).
  Hypothesis Hn : 1 <= n.
  Hypothesis G : good n l o.
  Hypothesis HL : lists_Sn n L.
  Notation M := (mm n o o L).

  Lemma tb_inj i k : 0 <= i < io_d o -> 0 <= k < io_d o -> tb o i = tb o k -> i = k.
  Proof. intros Hi Hk E. rewrite <- (pos_tb n l o i G Hi), <- (pos_tb n l o k G Hk), E. reflexivity. Qed.

  Lemma mm_off i j k m : 0 <= i < io_d o -> 0 <= k < io_d o -> i <> k -> M i j k m = 0%R.
  Proof. intros Hi Hk Ne. apply (mm_zero n l o l o L Hn G G HL); auto. intros (_ & E). apply Ne. apply tb_inj; auto. Qed.

  Lemma mm_const i j k m : 0 <= i < io_d o -> 0 <= k < io_d o -> M i j i m = M k j k m.
  Proof.
    intros Hi Hk. pose proof (proj1 G) as P.
    pose proof (@connected R (Z.to_nat n) l (fun t => M (pos o t) j (pos o t) m)) as C. replace (Z.of_nat (Z.to_nat n)) with n in C by lia.
    specialize (C P). assert (forall t i, standard l t -> 1 <= i < n -> standard l (tswap i (i + 1) t) ->
      M (pos o (tswap i (i + 1) t)) j (pos o (tswap i (i + 1) t)) m = M (pos o t) j (pos o t) m) as Step.
    { clear i k Hi Hk C. intros t v St Hv St'. destruct (pos_standard n l o t G St) as (B & E). destruct (pos_standard n l o _ G St') as (B' & E').
      set (a := pos o t) in *. set (b := pos o (tswap v (v + 1) t)) in *.
      assert (is_perm n (ptransp n v (v + 1))) as T by (apply is_perm_ptransp; lia).
      pose proof (mm_left n l o l o L G G HL (ptransp n v (v + 1)) b j a m T B' B) as K.
      assert (a <> b) as Nab.
      { intros Eab. assert (del v t = - del v t).
        { rewrite <- (del_swap n t v) by (auto; eapply standard_fill; eauto). rewrite <- E', <- Eab, E. reflexivity. }
        pose proof (del_nz n l t v P St Hv). lia. }
      rewrite (rsum_ext _ _ (fun x => (rho n o (ptransp n v (v + 1)) b x * M x j a m * delta x a)%R)) in K.
      2:{ intros x Hx. unfold delta. destruct (Z.eq_dec x a); [ring|]. rewrite (mm_off x j a m) by auto. ring. }
      rewrite (rsum_ext _ (fun c => (rho n o (ptransp n v (v + 1)) c a * M b j c m)%R) (fun x => (rho n o (ptransp n v (v + 1)) x a * M b j x m * delta x b)%R)) in K.
      2:{ intros x Hx. unfold delta. destruct (Z.eq_dec x b); [ring|]. rewrite (mm_off b j x m) by auto. ring. }
      rewrite !rsum_delta in K by auto. symmetry. apply (Rmult_eq_reg_l _ _ _ K).
      unfold rho. rewrite (Phi_gen n l) by (first [lia | exact P | eapply tb_standard; eassumption | assumption]). unfold TT, fcol. rewrite E', tswap_inv.
      fold a b. unfold delta. destruct (Z.eq_dec b a); [congruence|]. destruct (Z.eq_dec a a); [|contradiction].
      rewrite Rmult_0_r, Rplus_0_l, Rmult_1_r. apply Sd_nz.
      - eapply del_nz; eauto.
      - intros Q. apply (tswap_not_standard n l (tswap v (v + 1) t) v P St' Hv); auto. rewrite tswap_inv. auto.
      - intros Q. apply (tswap_not_standard n l (tswap v (v + 1) t) v P St' Hv); auto. rewrite tswap_inv. auto. }
    specialize (C Step (tb o i) (tb o k) (tb_standard n l o i G Hi) (tb_standard n l o k G Hk)). cbn beta in C.
    rewrite (pos_tb n l o i G Hi), (pos_tb n l o k G Hk) in C. exact C.
  Qed.

  Lemma mm_inv i j k m : 0 <= i < io_d o -> 0 <= j < io_d o -> 0 <= k < io_d o -> 0 <= m < io_d o -> M i j k m = M j i m k.
  Proof.
    intros Hi Hj Hk Hm. unfold mm. rewrite <- (sum_inv n L HL). apply lsum_ext. intros p Hp. apply HL in Hp.
    rewrite !(rho_inv n l o G) by auto. reflexivity.
  Qed.

  Lemma mm_diag i j : 0 <= i < io_d o -> 0 <= j < io_d o -> M i j i j = (IZR (zfact n) / IZR (io_d o))%R.
  Proof.
    intros Hi Hj. assert (rsum (io_d o) (fun k => M k j k j) = IZR (zfact n)) as E.
    { unfold mm. rewrite rsum_lsum, lsum_swap. rewrite (lsum_ext _ _ (fun _ => 1%R)).
      - rewrite lsum_const, (lists_Sn_len n L) by (auto; lia). ring.
      - intros p Hp. apply HL in Hp. rewrite <- rsum_lsum, (rho_orth n l o G) by auto. unfold delta. destruct (Z.eq_dec j j); [auto|contradiction]. }
    rewrite (rsum_ext _ _ (fun _ => M i j i j)) in E by (intros k Hk; apply mm_const; auto). rewrite rsum_lsum, lsum_const, zlen_zrange in E.
    replace (Z.max 0 (io_d o - 0)) with (io_d o) in E by lia. rewrite <- E. field. apply not_0_IZR. lia.
  Qed.

  Lemma mm_same i j k m : 0 <= i < io_d o -> 0 <= j < io_d o -> 0 <= k < io_d o -> 0 <= m < io_d o ->
    M i j k m = (if Z.eq_dec i k then if Z.eq_dec j m then IZR (zfact n) / IZR (io_d o) else 0 else 0)%R.
  Proof.
    intros Hi Hj Hk Hm. destruct (Z.eq_dec i k) as [<-|Ne]; [|apply mm_off; auto]. destruct (Z.eq_dec j m) as [<-|Ne]; [apply mm_diag; auto|].
    rewrite mm_inv by auto. apply mm_off; auto.
  Qed.
End Diagonal.

Lemma good_fun n l o o' : good n l o -> good n l o' -> o = o'.
Proof. intros (_ & _ & A & B & C) (_ & _ & A' & B' & C'). destruct o, o'. cbn in *. congruence. Qed.

Lemma schur n l l' o o' L A B : is_part n l -> is_part n l' -> 1 <= n -> irr_new l = Ret o -> irr_new l' = Ret o' -> lists_Sn n L ->
  (forall p, In p L -> irr_matrix o p = Ret (A p)) -> (forall p, In p L -> irr_matrix o' p = Ret (B p)) ->
  forall i j k m, 0 <= i < io_d o -> 0 <= j < io_d o -> 0 <= k < io_d o' -> 0 <= m < io_d o' ->
  (l = l' -> i = k -> j = m -> sum_over L (fun p => m_at (A p) i j * m_at (B p) k m)%R = (IZR (zfact n) / IZR (io_d o))%R) /\
  (~ (l = l' /\ i = k /\ j = m) -> sum_over L (fun p => m_at (A p) i j * m_at (B p) k m)%R = 0%R).
Proof.
  intros P P' Hn E E' HL HA HB i j k m Hi Hj Hk Hm. pose proof (irr_new_good n l o P Hn E) as G. pose proof (irr_new_good n l' o' P' Hn E') as G'.
  assert (sum_over L (fun p => m_at (A p) i j * m_at (B p) k m)%R = mm n o o' L i j k m) as Q.
  { change (@sum_over) with (@lsum). unfold mm. apply lsum_ext. intros p Hp. pose proof (proj1 (proj2 HL p) Hp) as Pp.
    destruct (matrix_ok n l o G p Pp) as (M & EM & _ & _ & V). destruct (matrix_ok n l' o' G' p Pp) as (M' & EM' & _ & _ & V').
    rewrite (HA p Hp) in EM. rewrite (HB p Hp) in EM'. apply Ret_inj in EM, EM'. subst M M'. rewrite V, V' by auto. reflexivity. }
  rewrite Q. split.
  - intros <- <- <-. pose proof (good_fun n l o o' G G') as <-. apply (mm_diag n l); auto.
  - intros Ne. destruct (list_eq_dec Z.eq_dec l l') as [El|Nl].
    + subst l'. pose proof (good_fun n l o o' G G') as <-. rewrite (mm_same n l) by auto. destruct (Z.eq_dec i k), (Z.eq_dec j m); auto. exfalso; auto.
    + apply (mm_zero n l o l' o'); auto. intros (K & _). contradiction.
Qed.

(* the elements of Sn in index order are such a list *)
Lemma Sn_listed n : 1 <= n -> exists L, lists_Sn n L /\ zlen L = zfact n /\ forall e, 0 <= e < zfact n -> sn_element n e = Ret (znth L e []).
Proof.
  intros Hn. exists (all_perms n). pose proof (all_perms_lists n ltac:(lia)) as H. split; auto. split; [apply lists_Sn_len; auto; lia|].
  intros e He. rewrite sn_element_ok by auto. f_equal. unfold all_perms. rewrite (znth_map _ _ _ 0) by (rewrite zlen_zrange; lia). rewrite znth_zrange by lia. f_equal.
Qed.

Lemma zfact_fact n : 0 <= n -> IZR (zfact n) = INR (fact (Z.to_nat n)).
Proof.
  intros Hn. rewrite INR_IZR_INZ. f_equal. change (zfact n) with (zfactn (Z.to_nat n)). induction (Z.to_nat n) as [|k IH]; [reflexivity|].
  cbn [zfactn]. rewrite IH. change (fact (S k)) with (S k * fact k)%nat. lia.
Qed.

Lemma schur_fact n l l' o o' L A B : is_part n l -> is_part n l' -> 1 <= n -> irr_new l = Ret o -> irr_new l' = Ret o' -> lists_Sn n L ->
  (forall p, In p L -> irr_matrix o p = Ret (A p)) -> (forall p, In p L -> irr_matrix o' p = Ret (B p)) ->
  forall i j k m, 0 <= i < io_d o -> 0 <= j < io_d o -> 0 <= k < io_d o' -> 0 <= m < io_d o' ->
  (l = l' -> i = k -> j = m -> sum_over L (fun p => m_at (A p) i j * m_at (B p) k m)%R = (INR (fact (Z.to_nat n)) / IZR (io_d o))%R) /\
  (~ (l = l' /\ i = k /\ j = m) -> sum_over L (fun p => m_at (A p) i j * m_at (B p) k m)%R = 0%R).
Proof. intros P P' Hn. rewrite <- zfact_fact by lia. apply schur; auto. Qed.

(* orthogonality of the characters *)
Lemma characters_orthogonal n l l' o o' L A B : is_part n l -> is_part n l' -> 1 <= n -> irr_new l = Ret o -> irr_new l' = Ret o' -> lists_Sn n L ->
  (forall p, In p L -> irr_matrix o p = Ret (A p)) -> (forall p, In p L -> irr_matrix o' p = Ret (B p)) ->
  sum_over L (fun p => trace (io_d o) (m_at (A p)) * trace (io_d o') (m_at (B p)))%R = (if list_eq_dec Z.eq_dec l l' then INR (fact (Z.to_nat n)) else 0)%R.
Proof.
  intros P P' Hn E E' HL HA HB. pose proof (schur_fact n l l' o o' L A B P P' Hn E E' HL HA HB) as S.
  change (@sum_over) with (@lsum) in *.
  assert (lsum L (fun p => trace (io_d o) (m_at (A p)) * trace (io_d o') (m_at (B p)))%R =
          rsum (io_d o) (fun i => rsum (io_d o') (fun k => lsum L (fun p => m_at (A p) i i * m_at (B p) k k)%R))) as Q.
  { unfold trace. rewrite rsum_lsum. rewrite (lsum_ext (zrange 0 (io_d o)) _ (fun i => lsum L (fun p => m_at (A p) i i * rsum (io_d o') (fun k => m_at (B p) k k))%R)).
    - rewrite lsum_swap. apply lsum_ext. intros p _. rewrite lsum_scal_r, rsum_lsum. reflexivity.
    - intros i _. rewrite rsum_lsum, lsum_swap. apply lsum_ext. intros p _. rewrite lsum_scal, rsum_lsum. reflexivity. }
  rewrite Q. destruct (list_eq_dec Z.eq_dec l l') as [El|Nl].
  - subst l'. assert (o = o') by congruence. subst o'.
    rewrite (rsum_ext _ _ (fun i => INR (fact (Z.to_nat n)) / IZR (io_d o))%R).
    + rewrite rsum_lsum, lsum_const, zlen_zrange. pose proof (irr_new_good n l o P Hn E) as G. 
      assert (0 < io_d o) as Hd.
      { destruct (standard_exists (Z.to_nat n) l) as (t & St); [replace (Z.of_nat (Z.to_nat n)) with n by lia; auto|]. pose proof (pos_standard n l o t G St). lia. }
      replace (Z.max 0 (io_d o - 0)) with (io_d o) by lia. field. apply not_0_IZR. lia.
    + intros i Hi. rewrite (rsum_ext _ _ (fun k => (INR (fact (Z.to_nat n)) / IZR (io_d o) * delta k i)%R)).
      * rewrite rsum_delta by auto. reflexivity.
      * intros k Hk. destruct (S i i k k Hi Hi Hk Hk) as (S1 & S2). unfold delta. destruct (Z.eq_dec k i) as [->|Nk].
        -- rewrite S1 by auto. ring.
        -- rewrite S2 by (intros (_ & K & _); congruence). ring.
  - rewrite (rsum_ext _ _ (fun _ => 0%R)).
    + rewrite rsum_lsum. apply lsum_0. auto.
    + intros i Hi. rewrite rsum_lsum. apply lsum_0. intros k Hk. apply in_zrange in Hk. destruct (S i i k k Hi Hi Hk Hk) as (_ & S2). apply S2. intros (K & _). contradiction.
Qed.
