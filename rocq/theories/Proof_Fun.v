(* Functions on Sn: translations and convolution (C42, C43). *)
From Coq Require Import ZArith List Bool Lia ZifyBool ZifyNat Reals Lra Permutation.
From Verif Require Import Model_Base Model_Perm Model_Sn Model_Fun.
From Verif Require Import Spec_Perm Spec_Four Spec_Fun.
From Verif Require Import Proof_Base Proof_Perm Proof_Sn Proof_TabProps Proof_Sum Proof_Schur.
Import ListNotations.
Open Scope Z_scope.

Definition is_fun (n : Z) (f : sfun) : Prop := sf_n f = n /\ zlen (sf_v f) = zfact n.

(* the value at a permutation *)
Definition fv (f : sfun) (s : list Z) : R := znth (sf_v f) (idn (Z.to_nat (sf_n f)) s) 0%R.

Lemma idn_range n s : is_perm n s -> 0 <= idn (Z.to_nat n) s < zfact n.
Proof. intros P. pose proof (is_perm_nonneg _ _ P). apply idn_bound. rewrite Z2Nat.id by lia. auto. Qed.

Lemma elt_idn_z n s : is_perm n s -> elt (Z.to_nat n) (idn (Z.to_nat n) s) = s.
Proof. intros P. pose proof (is_perm_nonneg _ _ P). apply elt_idn. rewrite Z2Nat.id by lia. auto. Qed.

Lemma idn_elt_z n e : 0 <= n -> 0 <= e < zfact n -> idn (Z.to_nat n) (elt (Z.to_nat n) e) = e.
Proof. intros Hn He. apply idn_elt. exact He. Qed.

Lemma is_perm_elt_z n e : 0 <= n -> is_perm n (elt (Z.to_nat n) e).
Proof. intros Hn. pose proof (is_perm_elt (Z.to_nat n) e) as H. rewrite Z2Nat.id in H by lia. auto. Qed.

Lemma idn_inj n s t : is_perm n s -> is_perm n t -> idn (Z.to_nat n) s = idn (Z.to_nat n) t -> s = t.
Proof. intros P Q E. rewrite <- (elt_idn_z n s P), <- (elt_idn_z n t Q), E. reflexivity. Qed.

Lemma sf_get_ok f i : 0 <= i < zlen (sf_v f) -> sf_get f i = Ret (znth (sf_v f) i 0%R).
Proof. intros H. unfold sf_get. apply rd_ok. auto. Qed.

Lemma sf_at_ok n f s : is_fun n f -> 1 <= n -> is_perm n s -> sf_at f s = Ret (fv f s).
Proof.
  intros (E & L) Hn P. unfold sf_at, fv. rewrite E, sn_index_ok by auto. cbn [bind]. apply sf_get_ok. rewrite L. apply idn_range; auto.
Qed.

(* functions with the same values are equal *)
Lemma fun_ext n f g : 1 <= n -> is_fun n f -> is_fun n g -> (forall s, is_perm n s -> fv f s = fv g s) -> f = g.
Proof.
  intros Hn (E & L) (E' & L') H. destruct f as [fn fvs], g as [gn gvs]. cbn [sf_n sf_v] in *. subst fn gn. f_equal.
  apply (list_ext _ _ 0%R); [congruence|]. intros i Hi. rewrite L in Hi. specialize (H (elt (Z.to_nat n) i) (is_perm_elt_z n i ltac:(lia))).
  unfold fv in H. cbn [sf_n sf_v] in H. rewrite !idn_elt_z in H by lia. exact H.
Qed.

(* writing every value to its new place *)
Section Scatter.
  Variables (n : Z) (f : sfun) (g gi : list Z -> list Z) (body : Z -> list (option R) -> outcome (list (option R))).
  Hypothesis Hn : 1 <= n.
  Hypothesis F : is_fun n f.
  Hypothesis Hg : forall s, is_perm n s -> is_perm n (g s).
  Hypothesis Hgi : forall s, is_perm n s -> is_perm n (gi s) /\ g (gi s) = s /\ gi (g s) = s.
  Hypothesis HB : forall i b, 0 <= i < zfact n -> body i b = raw_set b (idn (Z.to_nat n) (g (elt (Z.to_nat n) i))) (znth (sf_v f) i 0%R).

  Lemma scatter : exists h, (b <- zfor 0 (sf_N f) body (sf_raw (sf_n f)) ;; sf_done (sf_n f) b) = Ret h /\ is_fun n h /\
    forall s, is_perm n s -> fv h s = fv f (gi s).
  Proof.
    destruct F as (E & L). pose proof (zfact_pos n) as Fp. unfold sf_N. rewrite L, E.
    assert (exists b, zfor 0 (zfact n) body (sf_raw n) = Ret b /\ zlen b = zfact n /\
      forall e, 0 <= e < zfact n -> znth b (idn (Z.to_nat n) (g (elt (Z.to_nat n) e))) None = Some (znth (sf_v f) e 0%R)) as (b & E1 & E2 & E3).
    { destruct (zfor_inv (fun k b => zlen b = zfact n /\ forall e, 0 <= e < k -> znth b (idn (Z.to_nat n) (g (elt (Z.to_nat n) e))) None = Some (znth (sf_v f) e 0%R)) 0 (zfact n) body (sf_raw n)) as (b & A & B & C).
      - lia.
      - split; [unfold sf_raw, sn_size; rewrite zlen_repeat; lia|]. intros; lia.
      - intros i b Hi (Lb & Q). rewrite HB by auto. unfold raw_set.
        pose proof (idn_range n _ (Hg _ (is_perm_elt_z n i ltac:(lia)))) as R1. rewrite wr_ok by lia. eexists; split; [reflexivity|]. split; [rewrite zlen_zupd; lia|].
        intros e He. pose proof (idn_range n _ (Hg _ (is_perm_elt_z n e ltac:(lia)))) as R2. rewrite znth_zupd by lia. destruct (Z.eqb_spec (idn (Z.to_nat n) (g (elt (Z.to_nat n) e))) (idn (Z.to_nat n) (g (elt (Z.to_nat n) i)))) as [K|K].
        + do 2 f_equal. pose proof (is_perm_elt_z n e ltac:(lia)) as Pe. pose proof (is_perm_elt_z n i ltac:(lia)) as Pi. apply (idn_inj n) in K; auto.
          rewrite <- (idn_elt_z n e), <- (idn_elt_z n i) by lia. f_equal. rewrite <- (proj2 (proj2 (Hgi _ Pe))), <- (proj2 (proj2 (Hgi _ Pi))). congruence.
        + apply Q. assert (e <> i) by (intros ->; contradiction). lia.
      - exists b. auto. }
    rewrite E1. cbn [bind]. unfold sf_done.
    set (w := ztab (zfact n) (fun c => znth (sf_v f) (idn (Z.to_nat n) (gi (elt (Z.to_nat n) c))) 0%R)).
    rewrite (freeze_ok b w 0%R).
    - cbn [bind]. exists (mkFun n w). split; auto. assert (zlen w = zfact n) as Lw by (unfold w; rewrite zlen_ztab; lia). split; [split; auto|].
      intros s Ps. unfold fv. cbn [sf_n sf_v]. rewrite E. unfold w. rewrite znth_ztab by (apply idn_range; auto). rewrite elt_idn_z by auto. reflexivity.
    - unfold w. rewrite zlen_ztab; lia.
    - intros c Hc. assert (0 <= c < zfact n) as Hc' by (unfold w in Hc; try rewrite zlen_ztab in Hc by lia; lia). pose proof (is_perm_elt_z n c ltac:(lia)) as Pc. destruct (Hgi _ Pc) as (Q1 & Q2 & _).
      specialize (E3 (idn (Z.to_nat n) (gi (elt (Z.to_nat n) c))) (idn_range n _ Q1)). rewrite elt_idn_z, Q2, idn_elt_z in E3 by (auto; lia).
      rewrite E3. f_equal. unfold w. rewrite znth_ztab by lia. reflexivity.
  Qed.
End Scatter.

Lemma elt_mul_body n f i (tf : list Z -> outcome (list Z)) g (b : list (option R)) : is_fun n f -> 1 <= n -> 0 <= i < zfact n ->
  tf (elt (Z.to_nat n) i) = Ret g -> is_perm n g ->
  (s <- sn_element (sf_n f) i ;; s <- tf s ;; k <- sn_index (sf_n f) s ;; x <- sf_get f i ;; raw_set b k x) = raw_set b (idn (Z.to_nat n) g) (znth (sf_v f) i 0%R).
Proof.
  intros (E & L) Hn Hi T P. rewrite E, sn_element_ok by auto. cbn [bind]. rewrite T. cbn [bind]. rewrite sn_index_ok by auto. cbn [bind]. rewrite sf_get_ok by lia. reflexivity.
Qed.

Lemma left_ok n f t : is_fun n f -> 1 <= n -> is_perm n t ->
  exists h, sf_left_translate f t = Ret h /\ is_fun n h /\ forall s, is_perm n s -> fv h s = fv f (pmul (pinv t) s).
Proof.
  intros F Hn T. pose proof (is_perm_pinv n t T) as Ti. unfold sf_left_translate. apply (scatter n f (pmul t) (pmul (pinv t))); auto.
  - intros s Ps. apply (is_perm_pmul n); auto.
  - intros s Ps. split; [apply (is_perm_pmul n); auto|]. rewrite <- !(pmul_assoc n), (pmul_pinv_r n), (pmul_pinv_l n), (pmul_pid_l n) by auto. auto.
  - intros i b Hi. pose proof (is_perm_elt_z n i ltac:(lia)) as Pe. apply (elt_mul_body n f i (fun s => p_mul t s)); auto; [apply (p_mul_perm n); auto|apply (is_perm_pmul n); auto].
Qed.

Lemma right_ok n f t : is_fun n f -> 1 <= n -> is_perm n t ->
  exists h, sf_right_translate f t = Ret h /\ is_fun n h /\ forall s, is_perm n s -> fv h s = fv f (pmul s (pinv t)).
Proof.
  intros F Hn T. pose proof (is_perm_pinv n t T) as Ti. unfold sf_right_translate. apply (scatter n f (fun s => pmul s t) (fun s => pmul s (pinv t))); auto.
  - intros s Ps. apply (is_perm_pmul n); auto.
  - intros s Ps. split; [apply (is_perm_pmul n); auto|]. rewrite !(pmul_assoc n), (pmul_pinv_r n), (pmul_pinv_l n), (pmul_pid_r n) by auto. auto.
  - intros i b Hi. pose proof (is_perm_elt_z n i ltac:(lia)) as Pe. apply (elt_mul_body n f i (fun s => p_mul s t)); auto; [apply (p_mul_perm n); auto|apply (is_perm_pmul n); auto].
Qed.

Lemma inv_ok n f : is_fun n f -> 1 <= n -> exists h, sf_inv f = Ret h /\ is_fun n h /\ forall s, is_perm n s -> fv h s = fv f (pinv s).
Proof.
  intros F Hn. unfold sf_inv. apply (scatter n f pinv pinv); auto.
  - intros s Ps. apply is_perm_pinv; auto.
  - intros s Ps. split; [apply is_perm_pinv; auto|]. rewrite (pinv_involutive n) by auto. auto.
  - intros i b Hi. pose proof (is_perm_elt_z n i ltac:(lia)) as Pe. apply (elt_mul_body n f i p_inverse); auto; [apply (p_inverse_ok n); auto|apply is_perm_pinv; auto].
Qed.

Lemma foldM_acc_sum l (body : Z -> R -> outcome R) (x : Z -> R) a : (forall j t, In j l -> body j t = Ret (t + x j)%R) -> foldM body l a = Ret (a + lsum l x)%R.
Proof.
  revert a; induction l as [|j l IH]; intros a H; cbn [foldM]; [rewrite lsum_nil; f_equal; ring|]. rewrite H by (left; auto). cbn [bind].
  rewrite IH by (intros; apply H; right; auto). rewrite lsum_cons. f_equal. ring.
Qed.

Lemma lsum_elements n (F : list Z -> R) : lsum (zrange 0 (zfact n)) (fun e => F (elt (Z.to_nat n) e)) = lsum (all_perms n) F.
Proof. unfold all_perms. rewrite lsum_map. reflexivity. Qed.

Lemma convolve_ok n f g : is_fun n f -> is_fun n g -> 1 <= n ->
  exists h, sf_convolve f g = Ret h /\ is_fun n h /\ forall s, is_perm n s -> fv h s = lsum (all_perms n) (fun t => fv f (pmul s (pinv t)) * fv g t)%R.
Proof.
  intros F G Hn. pose proof (proj1 F) as En. pose proof (proj1 G) as Eg. unfold sf_convolve. rewrite Eg, En, Z.eqb_refl. cbn [assert_ bind].
  set (F' := mkFun n (ztab (zfact n) (fun e => lsum (all_perms n) (fun t => fv f (pmul (elt (Z.to_nat n) e) (pinv t)) * fv g t)%R))).
  pose proof (zfact_pos n) as Fp.
  assert (is_fun n F') as HF. { split; auto. unfold F'. cbn [sf_v]. rewrite zlen_ztab; lia. }
  destruct (scatter n F' (fun s => s) (fun s => s)) with (body := fun i b => 
     sigma <- sn_element n i ;;
     t <- zfor 0 (sf_N f) (fun j t => e <- sn_element n j ;; e <- p_inv e ;; s <- p_mul sigma e ;; x <- sf_at f s ;; y <- sf_get g j ;; Ret (t + x * y)%R) 0%R ;;
     raw_set b i t) as (h & E & Hh & V); auto.
  - intros i b Hi. rewrite sn_element_ok by auto. cbn [bind]. unfold zfor, sf_N. rewrite (proj2 F).
    rewrite (foldM_acc_sum _ _ (fun j => fv f (pmul (elt (Z.to_nat n) i) (pinv (elt (Z.to_nat n) j))) * fv g (elt (Z.to_nat n) j))%R).
    + cbn [bind]. rewrite Rplus_0_l, (lsum_elements n (fun t => fv f (pmul (elt (Z.to_nat n) i) (pinv t)) * fv g t)%R). rewrite idn_elt_z by lia. f_equal.
      unfold F'. cbn [sf_v]. rewrite znth_ztab by lia. reflexivity.
    + intros j t Hj. apply in_zrange in Hj. rewrite sn_element_ok by auto. cbn [bind]. pose proof (is_perm_elt_z n j ltac:(lia)) as Pj. pose proof (is_perm_elt_z n i ltac:(lia)) as Pi.
      unfold p_inv. rewrite (p_inverse_ok n) by auto. cbn [bind]. pose proof (is_perm_pinv n _ Pj). rewrite (p_mul_perm n) by auto. cbn [bind].
      rewrite (sf_at_ok n) by (auto; apply (is_perm_pmul n); auto). cbn [bind]. rewrite sf_get_ok by (rewrite (proj2 G); lia). cbn [bind]. do 3 f_equal.
      unfold fv. rewrite Eg, idn_elt_z by lia. reflexivity.
  - assert (sf_N F' = sf_N f) as EN by (unfold sf_N; rewrite (proj2 HF), (proj2 F); auto). rewrite EN in E. change (sf_n F') with n in E.
    exists h. split; [exact E|]. split; auto. intros s Ps. rewrite V by auto. unfold fv at 1. change (sf_n F') with n. unfold F'. cbn [sf_v].
    rewrite znth_ztab by (apply idn_range; auto). rewrite elt_idn_z by auto. reflexivity.
Qed.

(* ---- in the words of the interface ---- *)

Lemma zfact_nat n : zfact n = Z.of_nat (fact (Z.to_nat n)).
Proof. unfold zfact. induction (Z.to_nat n) as [|k IH]; [reflexivity|]. cbn [zfactn]. rewrite IH. change (fact (S k)) with (S k * fact k)%nat. lia. Qed.

Lemma fun_on_is n f : sf_n f = n -> length (sf_v f) = fact (Z.to_nat n) -> is_fun n f.
Proof. intros A B. split; auto. unfold zlen. rewrite B, zfact_nat. reflexivity. Qed.

Lemma is_fun_on n f : is_fun n f -> sf_n f = n /\ length (sf_v f) = fact (Z.to_nat n).
Proof. intros (A & B). split; auto. rewrite zfact_nat in B. unfold zlen in B. lia. Qed.

Lemma composes_pmul n p q s : is_perm n p -> is_perm n q -> is_perm n s -> composes n p q s -> s = pmul p q.
Proof.
  intros P Q Hs C. apply (perm_ext n); [apply is_perm_len; auto|rewrite zlen_pmul; apply is_perm_len; auto|]. intros i Hi. rewrite img_pmul; [auto|]. rewrite (is_perm_len n q); auto.
Qed.

Lemma pmul_composes n p q : is_perm n q -> composes n p q (pmul p q).
Proof. intros Q i Hi. apply img_pmul. rewrite (is_perm_len n q); auto. Qed.

Lemma inverse_pinv n p q : is_perm n p -> is_perm n q -> inverse_perms n p q -> q = pinv p.
Proof.
  intros P Q H. apply (pinv_unique n); auto. apply (perm_ext n); [rewrite zlen_pmul; apply is_perm_len; auto|apply zlen_pid; eapply is_perm_nonneg; eauto|].
  intros i Hi. rewrite img_pmul, img_pid by (rewrite ?(is_perm_len n q); auto). auto.
Qed.

Lemma left_translate n f t : 1 <= n -> sf_n f = n -> length (sf_v f) = fact (Z.to_nat n) -> is_perm n t ->
  exists g, sf_left_translate f t = Ret g /\ sf_n g = n /\ length (sf_v g) = fact (Z.to_nat n) /\
    forall s u, is_perm n s -> is_perm n u -> composes n t u s -> exists x, sf_at g s = Ret x /\ sf_at f u = Ret x.
Proof.
  intros Hn A B T. pose proof (fun_on_is n f A B) as F. destruct (left_ok n f t F Hn T) as (g & E & G & V). exists g. split; auto. pose proof (is_fun_on n g G) as (? & ?). split; auto. split; auto.
  intros s u Ps Pu C. exists (fv f u). rewrite !(sf_at_ok n) by auto. split; auto. rewrite V by auto. do 2 f_equal. rewrite (composes_pmul n t u s) by auto.
  pose proof (is_perm_pinv n t T). rewrite <- (pmul_assoc n), (pmul_pinv_l n), (pmul_pid_l n) by auto. auto.
Qed.

Lemma right_translate n f t : 1 <= n -> sf_n f = n -> length (sf_v f) = fact (Z.to_nat n) -> is_perm n t ->
  exists g, sf_right_translate f t = Ret g /\ sf_n g = n /\ length (sf_v g) = fact (Z.to_nat n) /\
    forall s u, is_perm n s -> is_perm n u -> composes n u t s -> exists x, sf_at g s = Ret x /\ sf_at f u = Ret x.
Proof.
  intros Hn A B T. pose proof (fun_on_is n f A B) as F. destruct (right_ok n f t F Hn T) as (g & E & G & V). exists g. split; auto. pose proof (is_fun_on n g G) as (? & ?). split; auto. split; auto.
  intros s u Ps Pu C. exists (fv f u). rewrite !(sf_at_ok n) by auto. split; auto. rewrite V by auto. do 2 f_equal. rewrite (composes_pmul n u t s) by auto.
  pose proof (is_perm_pinv n t T). rewrite (pmul_assoc n), (pmul_pinv_r n), (pmul_pid_r n) by auto. auto.
Qed.

Lemma inv_function n f : 1 <= n -> sf_n f = n -> length (sf_v f) = fact (Z.to_nat n) ->
  exists g, sf_inv f = Ret g /\ sf_n g = n /\ length (sf_v g) = fact (Z.to_nat n) /\
    forall s u, is_perm n s -> is_perm n u -> inverse_perms n s u -> exists x, sf_at g s = Ret x /\ sf_at f u = Ret x.
Proof.
  intros Hn A B. pose proof (fun_on_is n f A B) as F. destruct (inv_ok n f F Hn) as (g & E & G & V). exists g. split; auto. pose proof (is_fun_on n g G) as (? & ?). split; auto. split; auto.
  intros s u Ps Pu C. exists (fv f u). rewrite !(sf_at_ok n) by auto. split; auto. rewrite V by auto. do 2 f_equal. symmetry. apply (inverse_pinv n); auto.
Qed.

Lemma left_action n f t t' : 1 <= n -> sf_n f = n -> length (sf_v f) = fact (Z.to_nat n) -> is_perm n t -> is_perm n t' ->
  exists tt' g h, p_mul t t' = Ret tt' /\ sf_left_translate f t' = Ret g /\ sf_left_translate g t = Ret h /\ sf_left_translate f tt' = Ret h.
Proof.
  intros Hn A B T T'. pose proof (fun_on_is n f A B) as F. pose proof (is_perm_pmul n t t' T T') as TT. pose proof (is_perm_pinv n t T). pose proof (is_perm_pinv n t' T').
  destruct (left_ok n f t' F Hn T') as (g & E & G & V). destruct (left_ok n g t G Hn T) as (h & E' & H' & V'). destruct (left_ok n f (pmul t t') F Hn TT) as (k & E2 & H2 & V2).
  exists (pmul t t'), g, h. rewrite (p_mul_perm n) by auto. split; auto. split; auto. split; auto. rewrite E2. f_equal. apply (fun_ext n); auto.
  intros s Ps. rewrite V', V2, V, (pinv_pmul n), (pmul_assoc n) by (auto; apply (is_perm_pmul n); auto). reflexivity.
Qed.

Lemma right_action n f t t' : 1 <= n -> sf_n f = n -> length (sf_v f) = fact (Z.to_nat n) -> is_perm n t -> is_perm n t' ->
  exists tt' g h, p_mul t' t = Ret tt' /\ sf_right_translate f t' = Ret g /\ sf_right_translate g t = Ret h /\ sf_right_translate f tt' = Ret h.
Proof.
  intros Hn A B T T'. pose proof (fun_on_is n f A B) as F. pose proof (is_perm_pmul n t' t T' T) as TT. pose proof (is_perm_pinv n t T). pose proof (is_perm_pinv n t' T').
  destruct (right_ok n f t' F Hn T') as (g & E & G & V). destruct (right_ok n g t G Hn T) as (h & E' & H' & V'). destruct (right_ok n f (pmul t' t) F Hn TT) as (k & E2 & H2 & V2).
  exists (pmul t' t), g, h. rewrite (p_mul_perm n) by auto. split; auto. split; auto. split; auto. rewrite E2. f_equal. apply (fun_ext n); auto.
  intros s Ps. rewrite V', V2, V, (pinv_pmul n), (pmul_assoc n) by (auto; apply (is_perm_pmul n); auto). reflexivity.
Qed.

Lemma translate_identity n f : 1 <= n -> sf_n f = n -> length (sf_v f) = fact (Z.to_nat n) ->
  exists e, p_identity n = Ret e /\ sf_left_translate f e = Ret f /\ sf_right_translate f e = Ret f.
Proof.
  intros Hn A B. pose proof (fun_on_is n f A B) as F. pose proof (is_perm_pid n ltac:(lia)) as I. exists (pid n). rewrite p_identity_ok by lia. split; auto.
  destruct (left_ok n f _ F Hn I) as (g & E & G & V). destruct (right_ok n f _ F Hn I) as (h & E' & H' & V'). rewrite E, E'. split; f_equal; apply (fun_ext n); auto; intros s Ps;
    rewrite ?V, ?V', (pinv_pid n), ?(pmul_pid_l n), ?(pmul_pid_r n) by (auto; lia); auto.
Qed.

Lemma left_right_commute n f t t' : 1 <= n -> sf_n f = n -> length (sf_v f) = fact (Z.to_nat n) -> is_perm n t -> is_perm n t' ->
  exists a b h, sf_left_translate f t = Ret a /\ sf_right_translate a t' = Ret h /\ sf_right_translate f t' = Ret b /\ sf_left_translate b t = Ret h.
Proof.
  intros Hn A B T T'. pose proof (fun_on_is n f A B) as F. pose proof (is_perm_pinv n t T). pose proof (is_perm_pinv n t' T').
  destruct (left_ok n f t F Hn T) as (a & E & G & V). destruct (right_ok n a t' G Hn T') as (h & E' & H' & V'). destruct (right_ok n f t' F Hn T') as (b & E2 & H2 & V2).
  destruct (left_ok n b t H2 Hn T) as (k & E3 & H3 & V3). exists a, b, h. repeat (split; [assumption|]). rewrite E3. f_equal. apply (fun_ext n); auto.
  intros s Ps. rewrite V', V3, V, V2 by (auto; apply (is_perm_pmul n); auto). rewrite (pmul_assoc n) by auto. reflexivity.
Qed.

Lemma inv_involution n f : 1 <= n -> sf_n f = n -> length (sf_v f) = fact (Z.to_nat n) -> exists g, sf_inv f = Ret g /\ sf_inv g = Ret f.
Proof.
  intros Hn A B. pose proof (fun_on_is n f A B) as F. destruct (inv_ok n f F Hn) as (g & E & G & V). destruct (inv_ok n g G Hn) as (h & E' & H' & V'). exists g. split; auto. rewrite E'. f_equal.
  apply (fun_ext n); auto. intros s Ps. rewrite V', V, (pinv_involutive n) by (auto; apply is_perm_pinv; auto). auto.
Qed.

Lemma convolution n f g F G : 1 <= n -> sf_n f = n -> length (sf_v f) = fact (Z.to_nat n) -> sf_n g = n -> length (sf_v g) = fact (Z.to_nat n) ->
  (forall p, is_perm n p -> sf_at f p = Ret (F p)) -> (forall p, is_perm n p -> sf_at g p = Ret (G p)) ->
  exists h, sf_convolve f g = Ret h /\ sf_n h = n /\ length (sf_v h) = fact (Z.to_nat n) /\
    forall s, is_perm n s -> exists x, sf_at h s = Ret x /\ convolution_at n F G s x.
Proof.
  intros Hn A B A' B' HF HG. pose proof (fun_on_is n f A B) as IF. pose proof (fun_on_is n g A' B') as IG. destruct (convolve_ok n f g IF IG Hn) as (h & E & H & V).
  exists h. split; auto. pose proof (is_fun_on n h H) as (? & ?). split; auto. split; auto. intros s Ps. exists (fv h s). split; [apply (sf_at_ok n); auto|].
  intros L u HL HU. change (@sum_over) with (@lsum). rewrite V by auto. rewrite (lsum_Permutation _ _ _ (lists_Sn_Permutation n _ _ (all_perms_lists n ltac:(lia)) HL)).
  apply lsum_ext. intros t Ht. destruct (HU t Ht) as (Pu & C). apply HL in Ht. pose proof (is_perm_pinv n t Ht). 
  rewrite (composes_pmul n (u t) t s Pu Ht Ps C). rewrite (pmul_assoc n), (pmul_pinv_r n), (pmul_pid_r n) by auto.
  pose proof (HF (u t) Pu) as Q1. pose proof (HG t Ht) as Q2. rewrite (sf_at_ok n) in Q1, Q2 by auto. apply Ret_inj in Q1, Q2. rewrite Q1, Q2. reflexivity.
Qed.

Lemma convolution_value n F G s x y : 0 <= n -> is_perm n s -> convolution_at n F G s x -> convolution_at n F G s y -> x = y.
Proof.
  intros Hn Ps X Y. pose proof (all_perms_lists n Hn) as HL.
  assert (forall t, In t (all_perms n) -> is_perm n (pmul s (pinv t)) /\ composes n (pmul s (pinv t)) t s) as U.
  { intros t Ht. apply HL in Ht. pose proof (is_perm_pinv n t Ht) as Ti. pose proof (is_perm_pmul n _ _ Ps Ti). split; auto. intros i Hi.
    rewrite <- img_pmul by (rewrite (is_perm_len n t); auto). rewrite (pmul_assoc n), (pmul_pinv_l n), (pmul_pid_r n) by auto. auto. }
  rewrite (X _ _ HL U), (Y _ _ HL U). reflexivity.
Qed.

Lemma convolution_assoc n f g h : 1 <= n -> sf_n f = n -> length (sf_v f) = fact (Z.to_nat n) -> sf_n g = n -> length (sf_v g) = fact (Z.to_nat n) ->
  sf_n h = n -> length (sf_v h) = fact (Z.to_nat n) ->
  exists fg gh r, sf_convolve f g = Ret fg /\ sf_convolve fg h = Ret r /\ sf_convolve g h = Ret gh /\ sf_convolve f gh = Ret r.
Proof.
  intros Hn A B A' B' A'' B''. pose proof (fun_on_is n f A B) as IF. pose proof (fun_on_is n g A' B') as IG. pose proof (fun_on_is n h A'' B'') as IH.
  destruct (convolve_ok n f g IF IG Hn) as (fg & E1 & H1 & V1). destruct (convolve_ok n fg h H1 IH Hn) as (r & E2 & H2 & V2).
  destruct (convolve_ok n g h IG IH Hn) as (gh & E3 & H3 & V3). destruct (convolve_ok n f gh IF H3 Hn) as (r' & E4 & H4 & V4).
  exists fg, gh, r. repeat (split; [assumption|]). rewrite E4. f_equal. apply (fun_ext n); auto. intros s Ps. pose proof (all_perms_lists n ltac:(lia)) as HL.
  rewrite V2, V4 by auto.
  (* (f*g)*h (s) = sum_t sum_u f(s t^-1 u^-1) g(u) h(t);  f*(g*h)(s) = sum_v f(s v^-1) sum_t g(v t^-1) h(t) with u = v t^-1 *)
  rewrite (lsum_ext _ (fun t => (fv fg (pmul s (pinv t)) * fv h t)%R) (fun t => lsum (all_perms n) (fun v => (fv f (pmul s (pinv v)) * fv g (pmul v (pinv t)) * fv h t)%R))).
  - rewrite lsum_swap. apply lsum_ext. intros v Hv. apply HL in Hv. rewrite V3 by auto. rewrite <- lsum_scal. apply lsum_ext. intros; ring.
  - intros t Ht. apply HL in Ht. pose proof (is_perm_pinv n t Ht) as Ti. rewrite V1 by (apply (is_perm_pmul n); auto). rewrite lsum_scal_r. f_equal.
    rewrite <- (sum_right n _ HL (pinv t) (fun u => (fv f (pmul (pmul s (pinv t)) (pinv u)) * fv g u)%R) Ti). apply lsum_ext. intros v Hv. apply HL in Hv. pose proof (is_perm_pinv n v Hv) as Vi.
    do 2 f_equal. rewrite (pinv_pmul n), (pinv_involutive n) by auto. rewrite (pmul_assoc n) by (auto; apply (is_perm_pmul n); auto).
    f_equal. rewrite <- (pmul_assoc n), (pmul_pinv_l n), (pmul_pid_l n) by auto. reflexivity.
Qed.

Lemma convolution_delta n f d : 1 <= n -> sf_n f = n -> length (sf_v f) = fact (Z.to_nat n) -> sf_n d = n -> length (sf_v d) = fact (Z.to_nat n) ->
  (forall p, is_perm n p -> (forall i, 1 <= i <= n -> img p i = i) -> sf_at d p = Ret 1%R) ->
  (forall p, is_perm n p -> ~ (forall i, 1 <= i <= n -> img p i = i) -> sf_at d p = Ret 0%R) ->
  sf_convolve f d = Ret f /\ sf_convolve d f = Ret f.
Proof.
  intros Hn A B A' B' D1 D0. pose proof (fun_on_is n f A B) as IF. pose proof (fun_on_is n d A' B') as ID. pose proof (all_perms_lists n ltac:(lia)) as HL.
  pose proof (is_perm_pid n ltac:(lia)) as I.
  assert (fv d (pid n) = 1%R) as V1. { pose proof (D1 (pid n) I ltac:(intros; apply img_pid; auto)) as Q. rewrite (sf_at_ok n) in Q by auto. apply Ret_inj in Q. auto. }
  assert (forall p, is_perm n p -> p <> pid n -> fv d p = 0%R) as V0.
  { intros p P Ne. assert (sf_at d p = Ret 0%R) as Q.
    { apply D0; auto. intros K. apply Ne. apply (perm_ext n); [apply is_perm_len; auto|apply zlen_pid; lia|]. intros i Hi. rewrite img_pid by auto. auto. }
    rewrite (sf_at_ok n) in Q by auto. apply Ret_inj in Q. auto. }
  destruct (convolve_ok n f d IF ID Hn) as (a & E1 & H1 & W1). destruct (convolve_ok n d f ID IF Hn) as (b & E2 & H2 & W2). rewrite E1, E2.
  split; f_equal; apply (fun_ext n); auto; intros s Ps; rewrite ?W1, ?W2 by auto.
  - rewrite (lsum_single _ (pid n)); [|apply HL|apply HL; auto|].
    + rewrite V1, (pinv_pid n), (pmul_pid_r n) by (auto; lia). ring.
    + intros t Ht Ne. apply HL in Ht. rewrite V0 by auto. ring.
  - rewrite (lsum_single _ s); [|apply HL|apply HL; auto|].
    + rewrite (pmul_pinv_r n) by auto. rewrite V1. ring.
    + intros t Ht Ne. apply HL in Ht. pose proof (is_perm_pinv n t Ht). rewrite V0; [ring|apply (is_perm_pmul n); auto|]. intros K. apply Ne.
      pose proof (pinv_unique n s (pinv t) Ps H K) as Q. rewrite <- (pinv_involutive n t), Q, (pinv_involutive n) by auto. reflexivity.
Qed.

Lemma convolution_bilinear n a b f f' g k : 1 <= n -> (forall x, In x [f; f'; g; k] -> sf_n x = n /\ length (sf_v x) = fact (Z.to_nat n)) -> (forall p, is_perm n p -> exists x y, sf_at f p = Ret x /\ sf_at f' p = Ret y /\ sf_at k p = Ret (a * x + b * y)%R) ->
  exists fg f'g kg gf gf' gk, sf_convolve f g = Ret fg /\ sf_convolve f' g = Ret f'g /\ sf_convolve k g = Ret kg /\ (forall p, is_perm n p -> exists x y, sf_at fg p = Ret x /\ sf_at f'g p = Ret y /\ sf_at kg p = Ret (a * x + b * y)%R) /\
    sf_convolve g f = Ret gf /\ sf_convolve g f' = Ret gf' /\ sf_convolve g k = Ret gk /\ (forall p, is_perm n p -> exists x y, sf_at gf p = Ret x /\ sf_at gf' p = Ret y /\ sf_at gk p = Ret (a * x + b * y)%R).
Proof.
  intros Hn Q LC. assert (forall x, In x [f; f'; g; k] -> is_fun n x) as I by (intros x Hx; destruct (Q x Hx); apply fun_on_is; auto). clear Q.
  pose proof (I f ltac:(cbn; auto)) as If. pose proof (I f' ltac:(cbn; auto)) as If'. pose proof (I g ltac:(cbn; auto)) as Ig. pose proof (I k ltac:(cbn; auto)) as Ik. clear I.
  assert (forall p, is_perm n p -> fv k p = (a * fv f p + b * fv f' p)%R) as V.
  { intros p P. destruct (LC p P) as (x & y & X & Y & K). rewrite (sf_at_ok n) in X, Y, K by auto. apply Ret_inj in X, Y, K. congruence. }
  destruct (convolve_ok n f g If Ig Hn) as (fg & E1 & H1 & V1). destruct (convolve_ok n f' g If' Ig Hn) as (f'g & E2 & H2 & V2). destruct (convolve_ok n k g Ik Ig Hn) as (kg & E3 & H3 & V3).
  destruct (convolve_ok n g f Ig If Hn) as (gf & E4 & H4 & V4). destruct (convolve_ok n g f' Ig If' Hn) as (gf' & E5 & H5 & V5). destruct (convolve_ok n g k Ig Ik Hn) as (gk & E6 & H6 & V6).
  pose proof (all_perms_lists n ltac:(lia)) as HL.
  exists fg, f'g, kg, gf, gf', gk. split; auto. split; auto. split; auto. split; [|split; auto; split; auto; split; auto].
  - intros p P. exists (fv fg p), (fv f'g p). rewrite !(sf_at_ok n) by auto. split; auto. split; auto. f_equal. rewrite V1, V2, V3 by auto. rewrite <- !lsum_scal, <- lsum_plus.
    apply lsum_ext. intros t Ht. apply HL in Ht. rewrite V by (apply (is_perm_pmul n); auto; apply is_perm_pinv; auto). ring.
  - intros p P. exists (fv gf p), (fv gf' p). rewrite !(sf_at_ok n) by auto. split; auto. split; auto. f_equal. rewrite V4, V5, V6 by auto. rewrite <- !lsum_scal, <- lsum_plus.
    apply lsum_ext. intros t Ht. apply HL in Ht. rewrite V by auto. ring.
Qed.
