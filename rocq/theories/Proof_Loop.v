(* Loops over containers. *)
From Coq Require Import ZArith List Bool Lia ZifyBool Permutation.
From Verif Require Import Model_Base Model_Perm Model_Sn Model_Part Model_Comb Model_Tab Model_SnBank Model_Loop.
From Verif Require Import Spec_Perm Spec_Part Spec_Tab Spec_SnBank.
From Verif Require Import Proof_Base Proof_Perm Proof_Sn Proof_SnProps Proof_Part Proof_PartProps Proof_Tab Proof_TabProps Proof_SnBank Proof_SnBankProps.
Import ListNotations.
Open Scope Z_scope.

Lemma map_znth {A} (l : list A) d : map (fun i => znth l i d) (zrange 0 (zlen l)) = l.
Proof. apply map_znth_zrange. Qed.

Lemma range_for_ok {S A} (Inv : S -> Prop) (g : Z -> A) size item body (s : S) sz s1 : size s = Ret (sz, s1) -> 0 <= sz -> Inv s1 ->
  (forall i s, 0 <= i < sz -> Inv s -> exists s2 s3, item i s = Ret (g i, s2) /\ body i (g i) s2 = Ret s3 /\ Inv s3) ->
  exists s', range_for size item body s = Ret (map g (zrange 0 sz), s') /\ Inv s'.
Proof.
  intros E Hs I H. unfold range_for. rewrite E. cbn [bind fst snd].
  destruct (zfor_inv (fun i st => fst st = map g (zrange 0 i) /\ Inv (snd st)) 0 sz (fun i st => r <- item i (snd st) ;; s' <- body i (fst r) (snd r) ;; Ret (fst st ++ [fst r], s')) ([], s1)) as ((V & s') & Ez & EV & I'); [auto|split; auto| |].
  - intros i (V & s2) Hi (EV & I2). cbn [fst snd] in *. destruct (H i s2 Hi I2) as (s3 & s4 & E3 & E4 & I4). rewrite E3. cbn [bind fst snd]. rewrite E4. cbn [bind]. eexists. split; [reflexivity|]. cbn [fst snd]. split; auto. rewrite EV, zrange_snoc, map_app by lia. reflexivity.
  - cbn [fst snd] in *. exists s'. rewrite Ez, EV. auto.
Qed.

(* a container without state *)
Lemma range_for_pure {A} (L : list A) d size (item : Z -> unit -> outcome (A * unit)) : size tt = Ret (zlen L, tt) -> (forall i, 0 <= i < zlen L -> item i tt = Ret (znth L i d, tt)) ->
  range_for size item (fun _ _ s => Ret s) tt = Ret (L, tt).
Proof.
  intros E H. destruct (range_for_ok (fun _ => True) (fun i => znth L i d) size item (fun _ _ s => Ret s) tt (zlen L) tt E (zlen_nonneg L) I) as ([] & Q & _); [|rewrite Q, map_znth; auto].
  intros i [] Hi _. exists tt, tt. rewrite H by auto. auto.
Qed.

Lemma sn_size_pos n : 1 <= n -> 1 <= sn_size n.
Proof. intros H. rewrite sn_size_fact by lia. pose proof (Factorial.lt_O_fact (Z.to_nat n)). lia. Qed.

Definition elem (n i : Z) : perm := match sn_element n i with Ret s => s | _ => [] end.
Definition elems (n : Z) : list perm := map (elem n) (zrange 0 (sn_size n)).
Lemma zlen_elems n : 1 <= n -> zlen (elems n) = sn_size n.
Proof. intros H. pose proof (sn_size_pos n H). unfold elems. rewrite zlen_map, zlen_zrange; lia. Qed.
Lemma znth_elems n i d : 1 <= n -> 0 <= i < sn_size n -> znth (elems n) i d = elem n i.
Proof. intros H Hi. unfold elems. rewrite (znth_map _ _ _ 0) by (rewrite zlen_zrange by lia; lia). rewrite znth_zrange by lia. f_equal. Qed.
Lemma elem_ok n i : 1 <= n -> 0 <= i < sn_size n -> sn_element n i = Ret (elem n i) /\ is_perm n (elem n i) /\ sn_index n (elem n i) = Ret i.
Proof. intros H Hi. destruct (proj1 (sn_bijection n H) i Hi) as (s & E & P & X). unfold elem. rewrite E. auto. Qed.

Lemma elements_loop_elems n : 1 <= n -> elements_loop n = Ret (elems n, tt).
Proof.
  intros H. pose proof (zlen_elems n H) as Z. unfold elements_loop. apply (range_for_pure _ []); [rewrite Z; auto|]. intros i Hi. rewrite Z in Hi. rewrite znth_elems by auto. destruct (elem_ok n i H Hi) as (-> & _). reflexivity.
Qed.

Lemma elements_each_once n : 1 <= n -> exists L, elements_loop n = Ret (L, tt) /\ NoDup L /\ (forall s, In s L <-> is_perm n s) /\
  forall i, 0 <= i < Z.of_nat (length L) -> sn_element n i = Ret (nth (Z.to_nat i) L []).
Proof.
  intros H. exists (elems n). pose proof (zlen_elems n H) as Z. split; [|split; [|split]].
  - apply elements_loop_elems; auto.
  - apply (NoDup_nth _ []). intros i j Hi Hj E. unfold zlen in Z. pose proof (znth_elems n (Z.of_nat i) [] H ltac:(lia)) as A. pose proof (znth_elems n (Z.of_nat j) [] H ltac:(lia)) as B. unfold znth in A, B. rewrite Nat2Z.id in A, B. rewrite A, B in E.
    destruct (elem_ok n (Z.of_nat i) H ltac:(lia)) as (_ & _ & X). destruct (elem_ok n (Z.of_nat j) H ltac:(lia)) as (_ & _ & Y). rewrite E, Y in X. apply Ret_inj in X. lia.
  - intros s. split.
    + intros Hs. unfold elems in Hs. apply in_map_iff in Hs as (i & <- & Hi). apply in_zrange in Hi. apply elem_ok; auto.
    + intros P. destruct (proj2 (sn_bijection n H) s P) as (i & _ & Hi & E). unfold elems. apply in_map_iff. exists i. split; [unfold elem; rewrite E; auto|apply in_zrange; auto].
  - intros i Hi. unfold zlen in Z. rewrite Z in Hi. change (nth (Z.to_nat i) (elems n) []) with (znth (elems n) i []). rewrite znth_elems by auto. apply elem_ok; auto.
Qed.

(* ---- irreps ---- *)
Lemma irreps_each_once qs body n : Forall legal_call qs -> (forall i, Forall legal_call (body i)) -> 1 <= n ->
  exists as1 s1 ps s2 ls, srun qs ss0 = Ret (as1, s1) /\ irreps_loop n body s1 = Ret (ps, s2) /\ NoDup ls /\ (forall p, In p ls <-> is_part n p) /\ Forall2 (at_lambda s2) ps ls.
Proof.
  intros Lq Lb Hn. destruct (srun_ok qs ss0 W0 Lq) as (as1 & s1 & E1 & W1 & _ & _). destruct (get_Sn_ok n s1 W1 Hn) as (s2 & E2 & W2 & M2 & N2 & _).
  destruct (make_all_ok (n - 1) s2 W2 ltac:(lia)) as (s3 & E3 & W3 & M3 & N3 & C3 & _).
  destruct (range_for_ok (fun s => W s /\ M s3 s) (fun i => znth (sn_irreps (ob s3 (n - 1))) i 0)
    (fun s => s1 <- obj_make_all_irreps (n - 1) s ;; o <- rd (ss_objs s1) (n - 1) ;; Ret (zlen (sn_irreps o), s1)) (fun i s => obj_irrep_at (n - 1) i s)
    (fun i _ s => r <- srun (body i) s ;; Ret (snd r)) s2 (zlen (sn_irreps (ob s3 (n - 1)))) s3) as (s4 & E4 & W4 & M4).
  - rewrite E3. cbn [bind]. rewrite (rd_ok _ (n - 1) dob) by (fold (nob s3); lia). reflexivity.
  - apply zlen_nonneg.
  - split; auto. apply M_refl.
  - intros i s Hi (Ws & Ms). unfold obj_irrep_at. assert (n <= nob s) as Ns by (destruct Ms; lia). destruct (make_all_ok (n - 1) s Ws ltac:(lia)) as (s5 & E5 & W5 & M5 & N5 & C5 & _). rewrite E5. cbn [bind].
    rewrite (rd_ok _ (n - 1) dob) by (fold (nob s5); lia). cbn [bind]. fold (ob s5 (n - 1)). assert (M s3 s5) as M35 by (eapply M_trans; eauto). rewrite (complete_pre s3 s5 (n - 1)) by auto. rewrite (rd_ok _ i 0) by auto. cbn [bind].
    destruct (srun_ok (body i) s5 W5 (Lb i)) as (l & s6 & E6 & W6 & M6 & _). exists s5, s6. rewrite E6. cbn [bind snd]. split; auto. split; auto. split; auto. eapply M_trans; eauto.
  - rewrite map_znth in E4. pose proof (complete_mono _ _ _ W3 M4 C3) as C4. destruct (complete_irreps s4 (n - 1) W4 C4) as (N4 & I4). rewrite <- (complete_pre s3 s4 (n - 1)) in E4 by auto.
    exists as1, s1, (sn_irreps (ob s4 (n - 1))), s4, (map (fun q => ir_lambda (iro (ss_irr s4) q)) (sn_irreps (ob s4 (n - 1)))). split; auto. split; [unfold irreps_loop; rewrite E2; cbn [bind fst snd]; exact E4|]. split; auto. split; [intros p; rewrite I4; replace (n - 1 + 1) with n by lia; tauto|].
    assert (forall q, In q (sn_irreps (ob s4 (n - 1))) -> at_lambda s4 q (ir_lambda (iro (ss_irr s4) q))) as A.
    { intros q Hq. eapply (has_irrep_at s4 (n - 1)); auto. split; [apply C4|auto]. }
    revert A. generalize (sn_irreps (ob s4 (n - 1))). induction l; intros A; cbn [map]; constructor; [apply A; left; auto|]. apply IHl. intros q Hq. apply A. right. auto.
Qed.

(* ---- classes ---- *)
Lemma classes_in_order qs body n L : Forall legal_call qs -> (forall i, Forall legal_call (body i)) -> 1 <= n -> integer_partitions n = Ret L ->
  exists as1 s1 s2, srun qs ss0 = Ret (as1, s1) /\ classes_loop n body s1 = Ret (L, s2).
Proof.
  intros Lq Lb Hn EL. rewrite ints_pl in EL by auto. apply Ret_inj in EL. subst L. destruct (srun_ok qs ss0 W0 Lq) as (as1 & s1 & E1 & W1 & _ & _). destruct (get_Sn_ok n s1 W1 Hn) as (s2 & E2 & W2 & M2 & N2 & _).
  destruct (ncclasses_ok (n - 1) s2 W2 ltac:(lia)) as (s3 & E3 & W3 & M3 & _).
  destruct (range_for_ok (fun s => W s /\ M s3 s) (fun i => znth (pl (n - 1)) i []) (obj_ncclasses (n - 1)) (obj_cclass (n - 1)) (fun i _ s => r <- srun (body i) s ;; Ret (snd r)) s2 (zlen (pl (n - 1))) s3 E3) as (s4 & E4 & _).
  - apply zlen_nonneg.
  - split; auto. apply M_refl.
  - intros i s Hi (Ws & Ms). assert (n <= nob s) as Ns by (destruct Ms as (A & _), M3 as (B & _); lia). destruct (cclass_ok (n - 1) i s Ws ltac:(lia) Hi) as (s5 & E5 & W5 & M5 & _). destruct (srun_ok (body i) s5 W5 (Lb i)) as (l & s6 & E6 & W6 & M6 & _).
    exists s5, s6. rewrite E5, E6. cbn [bind snd]. split; auto. split; auto. split; auto. eapply M_trans; eauto. eapply M_trans; eauto.
  - rewrite map_znth in E4. exists as1, s1, s4. split; auto. unfold classes_loop. rewrite E2. cbn [bind fst snd]. exact E4.
Qed.

(* ---- partitions and tableaux ---- *)
Lemma parts_loop_ok n L : integer_partitions n = Ret L -> parts_loop n = Ret (L, tt).
Proof. intros E. unfold parts_loop, parts_at. rewrite E. cbn [bind]. apply (range_for_pure L []); auto. intros i Hi. rewrite (rd_ok _ i []) by auto. reflexivity. Qed.
Lemma tabs_loop_ok l L : young_tableaux l = Ret L -> tabs_loop l = Ret (L, tt).
Proof. intros E. unfold tabs_loop, tabs_at. rewrite E. cbn [bind]. apply (range_for_pure L []); auto. intros i Hi. rewrite (rd_ok _ i []) by auto. reflexivity. Qed.

Lemma parts_slice_ok n L first last : integer_partitions n = Ret L -> 0 <= first -> first <= last + 1 -> last < Z.of_nat (length L) ->
  parts_slice n first last = Ret (firstn (Z.to_nat (last - first + 1)) (skipn (Z.to_nat first) L)).
Proof.
  intros E H0 H1 H2. unfold parts_slice, parts_at. rewrite E. cbn [bind].
  destruct (zfor_inv (fun i R => R = firstn (Z.to_nat (i - first)) (skipn (Z.to_nat first) L)) first (last + 1) (fun i R => x <- rd L i ;; Ret (R ++ [x])) []) as (R & -> & ->); [lia|rewrite Z.sub_diag; reflexivity| |].
  - intros i R Hi ->. rewrite (rd_ok _ i []) by (unfold zlen; lia). cbn [bind]. eexists. split; [reflexivity|]. replace (Z.to_nat (i + 1 - first)) with (S (Z.to_nat (i - first))) by lia. unfold znth.
    replace (nth (Z.to_nat i) L []) with (nth (Z.to_nat (i - first)) (skipn (Z.to_nat first) L) []).
    2:{ rewrite <- (firstn_skipn (Z.to_nat first) L) at 2. rewrite app_nth2; rewrite firstn_length; [f_equal; lia|lia]. }
    assert (Z.to_nat (i - first) < length (skipn (Z.to_nat first) L))%nat as Q by (rewrite skipn_length; lia). revert Q. generalize (skipn (Z.to_nat first) L) as X, (Z.to_nat (i - first)) as k. clear. induction X as [|x X IH]; intros k Q; [cbn in Q; lia|]. destruct k; [reflexivity|]. cbn [firstn nth app]. f_equal. apply IH. cbn in Q. lia.
  - do 2 f_equal. lia.
Qed.
Lemma parts_slice_out n L first last : integer_partitions n = Ret L -> 0 <= first <= Z.of_nat (length L) -> Z.of_nat (length L) <= last -> parts_slice n first last = UB.
Proof.
  intros E H0 H1. assert (forall m, Z.of_nat (length L) <= m -> parts_slice n first m = UB) as Q; [|auto]. intros m Hm0. revert m Hm0. apply (Zlt_lower_bound_ind (fun m => parts_slice n first m = UB)). intros m IH Hm.
  unfold parts_slice. rewrite zfor_snoc by lia.
  destruct (Z.eq_dec m (Z.of_nat (length L))) as [->|].
  - pose proof (parts_slice_ok n L first (Z.of_nat (length L) - 1) E ltac:(lia) ltac:(lia) ltac:(lia)) as P. unfold parts_slice in P. replace (Z.of_nat (length L) - 1 + 1) with (Z.of_nat (length L)) in P by lia. rewrite P. cbn [bind]. unfold parts_at. rewrite E. cbn [bind]. rewrite rd_out by (unfold zlen; lia). reflexivity.
  - pose proof (IH (m - 1) ltac:(lia)) as P. unfold parts_slice in P. replace (m - 1 + 1) with m in P by lia. rewrite P. reflexivity.
Qed.

(* ---- Python ---- *)
Lemma skipn_nth {A} (L : list A) : forall j d, (j < length L)%nat -> skipn j L = nth j L d :: skipn (S j) L.
Proof. induction L as [|x L IH]; intros j d H; [cbn in H; lia|]. destruct j; [reflexivity|]. cbn [skipn nth]. cbn in H. rewrite (IH j d) by lia. reflexivity. Qed.

Lemma py_loop_list {A} (item : Z -> outcome A) L d : (forall i, 0 <= i < zlen L -> item i = Ret (znth L i d)) -> item (zlen L) = UB ->
  forall k, py_loop item 0 k = if (k <=? length L)%nat then Ret (firstn k L, false) else UB.
Proof.
  intros H Ho.
  assert (forall k (j : nat), (j <= length L)%nat -> py_loop item (Z.of_nat j) k = if (j + k <=? length L)%nat then Ret (firstn k (skipn j L), false) else UB) as Q.
  2:{ intros k. specialize (Q k O (Nat.le_0_l _)). exact Q. }
  induction k as [|k IH]; intros j Hj; cbn [py_loop].
  - destruct (Nat.leb_spec (j + 0) (length L)); [auto|lia].
  - destruct (Nat.eq_dec j (length L)) as [->|].
    + change (Z.of_nat (length L)) with (zlen L). rewrite Ho. destruct (Nat.leb_spec (length L + S k) (length L)); [lia|auto].
    + rewrite H by (unfold zlen; lia). replace (Z.of_nat j + 1) with (Z.of_nat (S j)) by lia. rewrite IH by lia. replace (S j + k)%nat with (j + S k)%nat by lia. destruct (Nat.leb_spec (j + S k) (length L)) as [Q|Q]; [|auto]. cbn [bind fst snd]. repeat f_equal. unfold znth. rewrite Nat2Z.id. rewrite (skipn_nth L j d) by lia. reflexivity.
Qed.

Lemma py_elements n : 2 <= n -> exists L, elements_loop n = Ret (L, tt) /\ forall k, py_loop (sn_element n) 0 k = if (k <=? length L)%nat then Ret (firstn k L, false) else UB.
Proof.
  intros H. exists (elems n). assert (1 <= n) as H1 by lia. split; [apply elements_loop_elems; auto|]. pose proof (zlen_elems n H1) as Z. apply (py_loop_list _ (elems n) []).
  - intros i Hi. rewrite Z in Hi. rewrite znth_elems by auto. apply elem_ok; auto.
  - rewrite Z. apply sn_element_out; auto. apply Z.le_refl.
Qed.

Lemma sn_element_one i : 0 <= i -> sn_element 1 i = Ret [1].
Proof. intros H. unfold sn_element. cbn. reflexivity. Qed.
Lemma py_elements_one k : py_loop (sn_element 1) 0 k = Ret (repeat [1] k, false).
Proof.
  assert (forall k i, 0 <= i -> py_loop (sn_element 1) i k = Ret (repeat [1] k, false)) as Q; [|apply Q; lia]. clear k. induction k as [|k IH]; intros i Hi; cbn [py_loop repeat]; auto. rewrite sn_element_one by auto. rewrite IH by lia. reflexivity.
Qed.

Lemma py_parts n L : integer_partitions n = Ret L -> forall k, py_loop (parts_at n) 0 k = if (k <=? length L)%nat then Ret (firstn k L, false) else UB.
Proof. intros E. apply (py_loop_list _ L []); unfold parts_at; rewrite E; cbn [bind]; [intros i Hi; apply rd_ok; auto|apply rd_out; lia]. Qed.
Lemma py_tabs l L : young_tableaux l = Ret L -> forall k, py_loop (tabs_at l) 0 k = if (k <=? length L)%nat then Ret (firstn k L, false) else UB.
Proof. intros E. apply (py_loop_list _ L []); unfold tabs_at; rewrite E; cbn [bind]; [intros i Hi; apply rd_ok; auto|apply rd_out; lia]. Qed.
Lemma py_rows (l : part) : forall k, py_loop (ip_get l) 0 k = if (k <=? length l)%nat then Ret (firstn k l, false) else UB.
Proof. apply (py_loop_list _ l 0); unfold ip_get; [intros i Hi; apply rd_ok; auto|apply rd_out; lia]. Qed.
Lemma py_perm (p : perm) k : (1 <= k)%nat -> py_loop (p_call p) 0 k = UB.
Proof. intros H. destruct k; [lia|]. cbn [py_loop]. unfold p_call. rewrite rd_out by lia. reflexivity. Qed.
