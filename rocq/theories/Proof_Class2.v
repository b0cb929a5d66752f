(* The size of a conjugacy class. *)
From Coq Require Import ZArith List Bool Lia ZifyBool Permutation Arith Sorting.Sorted.
From Verif Require Import Model_Base Model_Sn Model_Perm Model_Class.
From Verif Require Import Spec_Perm Spec_Part Spec_Tab Spec_Rep Spec_Four.
From Verif Require Import Proof_Base Proof_Perm Proof_Sn Proof_Part Proof_PartProps Proof_Schur Proof_Char Proof_Class.
Import ListNotations.

Definition pts (n : Z) : list Z := zrange 1 (n + 1).
Lemma pts_nodup n : NoDup (pts n).
Proof. apply NoDup_zrange. Qed.
Lemma in_pts n x : In x (pts n) <-> (1 <= x <= n)%Z.
Proof. unfold pts. rewrite in_zrange. lia. Qed.
Lemma perm_pts n w : is_perm n w <-> (0 <= n)%Z /\ Permutation w (pts n).
Proof.
  split.
  - intros H. split; [eapply is_perm_nonneg; eauto|]. apply NoDup_Permutation; [apply H|apply pts_nodup|]. intros x. rewrite in_pts. split; [apply H|]. intros Hx. eapply is_perm_onto; eauto.
  - intros (Hn & P). split; [|split].
    + rewrite (Permutation_length P). unfold pts. rewrite zrange_length. lia.
    + intros v Hv. apply in_pts. eapply Permutation_in; eauto.
    + eapply Permutation_NoDup; [apply Permutation_sym; exact P|apply pts_nodup].
Qed.

(* ---- cycles of the specification and cycles as orbits ---- *)

Lemma orb_nth f m x k : (k < m)%nat -> nth k (orb f m x) 0%Z = itf f k x.
Proof. revert x k. induction m as [|m IH]; intros x [|k] H; try lia; auto. cbn [orb nth]. rewrite IH by lia. apply iter_shift. Qed.

Lemma cyc_orb f c : c <> [] -> NoDup c -> (forall k, (k < length c)%nat -> f (nth k c 0%Z) = nth (if Nat.eq_dec (S k) (length c) then 0%nat else S k) c 0%Z) ->
  c = orb f (length c) (nth 0 c 0%Z) /\ iscyc f (length c) (nth 0 c 0%Z).
Proof.
  intros NE N H.
  assert (forall k, (k < length c)%nat -> nth k c 0%Z = itf f k (nth 0 c 0%Z)) as K.
  { induction k as [|k IH]; intros Hk; auto. cbn [itf]. rewrite <- IH by lia. rewrite H by lia. destruct (Nat.eq_dec (S k) (length c)); [lia|auto]. }
  assert (c = orb f (length c) (nth 0 c 0%Z)) as E.
  { apply nth_ext with (d := 0%Z) (d' := 0%Z); [rewrite orb_length; auto|]. intros k Hk. rewrite orb_nth by auto. auto. }
  split; auto. assert (1 <= length c)%nat as L by (destruct c; [contradiction|cbn; lia]). split; auto. split; [rewrite <- E; auto|].
  destruct (length c) as [|l] eqn:Q; [lia|]. cbn [itf]. rewrite <- K by lia. rewrite H by lia. destruct (Nat.eq_dec (S l) (S l)); [auto|contradiction].
Qed.

Lemma orb_cyc f m x : iscyc f m x -> forall k, (k < m)%nat -> f (nth k (orb f m x) 0%Z) = nth (if Nat.eq_dec (S k) m then 0%nat else S k) (orb f m x) 0%Z.
Proof.
  intros (L & N & E) k Hk. rewrite orb_nth by auto. change (f (itf f k x)) with (itf f (S k) x). destruct (Nat.eq_dec (S k) m) as [->|NE]; [rewrite orb_nth by lia; cbn; auto|]. rewrite orb_nth by lia. auto.
Qed.

Lemma Forall_concat_in {A} (cs : list (list A)) c : In c cs -> incl c (concat cs).
Proof. intros H x Hx. apply in_concat. eauto. Qed.
Lemma NoDup_concat_in {A} (cs : list (list A)) c : NoDup (concat cs) -> In c cs -> NoDup c.
Proof. intros N H. induction cs as [|c' cs IH]; [contradiction|]. cbn in N. apply NoDup_app_iff' in N as (A1 & B & _). destruct H as [<-|H]; auto. Qed.

Definition tn (mu : list Z) : list nat := map Z.to_nat mu.
Definition lens (cs : list (list Z)) : list nat := map (@length Z) cs.
Definition hc f cs : Prop := forall c k, In c cs -> (k < length c)%nat -> f (nth k c 0%Z) = nth (if Nat.eq_dec (S k) (length c) then 0%nat else S k) c 0%Z.

Lemma lens_tn cs mu : map (fun c => Z.of_nat (length c)) cs = mu -> lens cs = tn mu.
Proof. intros <-. unfold lens, tn. rewrite map_map. apply map_ext. intros c. lia. Qed.
Lemma tn_lens cs mu : ppos mu -> lens cs = tn mu -> map (fun c => Z.of_nat (length c)) cs = mu.
Proof.
  unfold lens, tn. revert mu. induction cs as [|c cs IH]; intros [|m mu] P H; try discriminate; auto. cbn [map] in *. injection H as E H. apply ppos_inv in P as (P1 & P2). rewrite (IH mu) by auto. f_equal. lia.
Qed.

Lemma hc_cyclists f cs : hc f cs -> Forall (fun m => (1 <= m)%nat) (lens cs) -> NoDup (concat cs) -> Forall (cyclist f) cs.
Proof.
  intros H L N. apply Forall_forall. intros c Hc. assert (c <> []) as NE. { intros ->. rewrite Forall_forall in L. specialize (L 0%nat). assert (1 <= 0)%nat; [|lia]. apply L. unfold lens. apply in_map_iff. exists []. auto. }
  destruct (cyc_orb f c NE (NoDup_concat_in cs c N Hc)) as (A & B); [intros k Hk; apply H; auto|]. exists (nth 0 c 0%Z). auto.
Qed.

(* a word that is cut into cycles *)
Lemma cyclists_good f cs : Forall (cyclist f) cs -> good f (lens cs) (concat cs).
Proof. induction cs as [|c cs IH]; intros F; cbn; auto. inversion F; subst. destruct H1 as (x & E & C). exists x, (concat cs). rewrite <- E. auto. Qed.
Lemma good_cyclists f mu : forall w, good f mu w -> exists cs, Forall (cyclist f) cs /\ lens cs = mu /\ concat cs = w.
Proof.
  induction mu as [|m mu IH]; intros w G; cbn in G; [subst; exists []; auto|]. destruct G as (x & w' & -> & C & G). destruct (IH w' G) as (cs & F & L & E). exists (orb f m x :: cs). split; [constructor; auto|].
  - exists x. rewrite orb_length. auto.
  - unfold lens in *. cbn. rewrite orb_length, L, E. auto.
Qed.
Lemma cyclists_hc f cs : Forall (cyclist f) cs -> hc f cs.
Proof. intros F c k Hc Hk. rewrite Forall_forall in F. destruct (F c Hc) as (x & E & C). pose proof (orb_cyc f (length c) x C k Hk) as Q. rewrite <- E in Q. exact Q. Qed.

Lemma hc_unique f g cs : hc f cs -> hc g cs -> forall x, In x (concat cs) -> f x = g x.
Proof. intros F G x Hx. apply in_concat in Hx as (c & Hc & Hx). apply (In_nth _ _ 0%Z) in Hx as (k & Hk & <-). rewrite F, G by auto. auto. Qed.

(* the permutation with given cycles *)
Fixpoint nx (d : Z) (c : list Z) (x : Z) : Z := match c with [] => x | a :: c' => if Z.eq_dec a x then (match c' with [] => d | b :: _ => b end) else nx d c' x end.
Fixpoint nextf (cs : list (list Z)) (x : Z) : Z := match cs with [] => x | c :: cs' => if in_dec Z.eq_dec x c then nx (nth 0 c 0%Z) c x else nextf cs' x end.

Lemma nx_map d c : NoDup c -> c <> [] -> map (nx d c) c = tl c ++ [d].
Proof.
  induction c as [|a c IH]; intros N NE; [contradiction|]. inversion N; subst. cbn [map tl]. destruct c as [|b c].
  - cbn. destruct (Z.eq_dec a a); [auto|contradiction].
  - change ((b :: c) ++ [d]) with (b :: tl (b :: c) ++ [d]). rewrite <- IH by (auto; discriminate). f_equal.
    + cbn [nx]. destruct (Z.eq_dec a a); [auto|contradiction].
    + apply map_ext_in. intros x Hx. cbn [nx]. destruct (Z.eq_dec a x) as [->|]; [contradiction|auto].
Qed.
Lemma nx_nth c k : NoDup c -> (k < length c)%nat -> nx (nth 0 c 0%Z) c (nth k c 0%Z) = nth (if Nat.eq_dec (S k) (length c) then 0%nat else S k) c 0%Z.
Proof.
  intros N Hk. set (d := nth 0 c 0%Z). assert (nth k (map (nx d c) c) 0%Z = nx d c (nth k c 0%Z)) as <-.
  { rewrite (nth_indep _ 0%Z (nx d c 0%Z)) by (rewrite map_length; auto). apply map_nth. }
  rewrite nx_map; [|auto|intros ->; cbn in Hk; lia]. destruct c as [|a c]; [cbn in Hk; lia|]. cbn [tl length] in *. destruct (Nat.eq_dec (S k) (S (length c))).
  - replace k with (length c) by lia. rewrite app_nth2, Nat.sub_diag by lia. auto.
  - rewrite app_nth1 by lia. auto.
Qed.

Lemma nextf_in cs c x : NoDup (concat cs) -> In c cs -> In x c -> nextf cs x = nx (nth 0 c 0%Z) c x.
Proof.
  induction cs as [|c' cs IH]; intros N Hc Hx; [contradiction|]. cbn in N. apply NoDup_app_iff' in N as (N1 & N2 & D). cbn [nextf]. destruct Hc as [->|Hc].
  - destruct (in_dec Z.eq_dec x c); [auto|contradiction].
  - destruct (in_dec Z.eq_dec x c') as [H|]; auto. destruct (D x H). apply in_concat. eauto.
Qed.
Lemma nextf_hc cs : NoDup (concat cs) -> hc (nextf cs) cs.
Proof. intros N c k Hc Hk. rewrite (nextf_in cs c) by (auto using nth_In). apply nx_nth; auto. eapply NoDup_concat_in; eauto. Qed.

Lemma nextf_map cs : NoDup (concat cs) -> Permutation (map (nextf cs) (concat cs)) (concat cs).
Proof.
  intros N. assert (forall cs', incl cs' cs -> Permutation (map (nextf cs) (concat cs')) (concat cs')) as K; [|apply K, incl_refl].
  induction cs' as [|c cs' IH]; intros I; [constructor|]. cbn [concat]. rewrite map_app. apply Permutation_app; [|apply IH; intros y Hy; apply I; cbn; auto].
  assert (In c cs) as Hc by (apply I; cbn; auto). destruct c as [|a c]; [constructor|].
  rewrite (map_ext_in _ (nx a (a :: c))) by (intros x Hx; apply (nextf_in cs (a :: c)); auto). rewrite nx_map; [|eapply NoDup_concat_in; eauto|discriminate]. cbn [tl]. apply Permutation_sym, Permutation_cons_append.
Qed.

Lemma img_map_pts n f x : (1 <= x <= n)%Z -> img (map f (pts n)) x = f x.
Proof.
  intros H. unfold img. rewrite (nth_indep _ 0%Z (f 0%Z)) by (rewrite map_length; unfold pts; rewrite zrange_length; lia). rewrite map_nth. f_equal. unfold pts. pose proof (znth_zrange 1 (n + 1) (x - 1) 0%Z ltac:(lia)) as Q. unfold znth in Q. destruct (x - 1 <? 0)%Z eqn:E; [lia|]. rewrite Q. lia.
Qed.

Lemma make_perm n cs : is_perm n (concat cs) -> exists p, is_perm n p /\ hc (img p) cs.
Proof.
  intros H. pose proof H as (_ & _ & N). apply perm_pts in H as (Hn & P). exists (map (nextf cs) (pts n)). split.
  - apply perm_pts. split; auto. eapply perm_trans; [apply Permutation_map, Permutation_sym; exact P|]. eapply perm_trans; [apply nextf_map; auto|auto].
  - intros c k Hc Hk. rewrite img_map_pts; [apply nextf_hc; auto|]. apply in_pts. eapply Permutation_in; [exact P|]. apply in_concat. eauto using nth_In.
Qed.

(* ---- the count ---- *)

Definition allw (n : Z) (mu : list nat) (p : list Z) : list (list Z) := enum (img p) mu (pts n).
Definition classes (n : Z) (K : list (list Z)) (mu : list nat) : list (list Z) := flat_map (allw n mu) K.

Lemma cycle_type_iff n p mu : ppos mu -> (cycle_type n p mu <-> is_perm n p /\ exists w, is_perm n w /\ good (img p) (tn mu) w).
Proof.
  intros Pm. split.
  - intros (P & cs & (Pc & H) & L). split; auto. exists (concat cs). split; auto. apply lens_tn in L. rewrite <- L. apply cyclists_good. apply hc_cyclists; auto; [|apply Pc]. rewrite L. unfold tn. apply Forall_map, Forall_forall. intros x Hx. pose proof (Pm x Hx). lia.
  - intros (P & w & Pw & G). split; auto. apply good_cyclists in G as (cs & F & L & E). exists cs. subst w. split; [split; auto; apply cyclists_hc; auto|apply tn_lens; auto].
Qed.

Lemma good_len f mu : forall w, good f mu w -> length w = nsum mu.
Proof. induction mu as [|m mu IH]; intros w G; cbn in G; [subst; auto|]. destruct G as (x & w' & -> & _ & G). rewrite app_length, orb_length, (IH w' G). reflexivity. Qed.
Lemma app_eq_len {A} (a b c d : list A) : a ++ c = b ++ d -> length a = length b -> a = b /\ c = d.
Proof. revert b. induction a as [|u a IH]; intros [|v b] E L; cbn in *; try lia; auto. injection E as -> E. destruct (IH b E) as (-> & ->); auto. Qed.
Lemma good_unique n p q mu : forall w, is_perm n w -> good (img p) mu w -> good (img q) mu w -> is_perm n p -> is_perm n q -> p = q.
Proof.
  intros w Pw G G' Pp Pq.
  assert (forall x, In x w -> img p x = img q x) as K.
  { clear Pw. revert w G G'. induction mu as [|m mu IH]; intros w G G'; cbn in G, G'; [subst; contradiction|]. destruct G as (x & w1 & E1 & C1 & G). destruct G' as (y & w2 & E2 & C2 & G').
    assert (orb (img p) m x = orb (img q) m y /\ w1 = w2) as (EO & <-).
    { apply app_eq_len; [congruence|rewrite !orb_length; auto]. }
    subst w. intros z Hz. apply in_app_or in Hz as [Hz|Hz]; [|apply (IH w1); auto]. apply (In_nth _ _ 0%Z) in Hz as (k & Hk & <-). rewrite orb_length in Hk. rewrite (orb_cyc _ _ _ C1 k Hk). rewrite EO. symmetry. apply orb_cyc; auto. }
  apply (perm_ext n); [eapply is_perm_len; eauto|eapply is_perm_len; eauto|]. intros i Hi. apply K. eapply is_perm_onto; eauto.
Qed.

Lemma good_exists n mu w : ppos mu -> zsum mu = n -> is_perm n w -> exists p, is_perm n p /\ good (img p) (tn mu) w.
Proof.
  intros Pm Sm Pw.
  assert (forall mu w, ppos mu -> zlen w = zsum mu -> exists cs, concat cs = w /\ lens cs = tn mu) as CUT.
  { clear. induction mu as [|m mu IH]; intros w Pm L.
    - cbn in L. destruct w; [|rewrite zlen_cons in L; pose proof (zlen_nonneg w); lia]. exists []. auto.
    - apply ppos_inv in Pm as (P1 & P2). cbn in L. fold (zsum mu) in L. pose proof (zsum_ppos mu P2). unfold zlen in L.
      destruct (IH (skipn (Z.to_nat m) w) P2) as (cs & E & Q); [unfold zlen; rewrite skipn_length; lia|]. exists (firstn (Z.to_nat m) w :: cs). split; [cbn; rewrite E; apply firstn_skipn|]. unfold lens, tn in *. cbn. rewrite Q, firstn_length. f_equal. lia. }
  destruct (CUT mu w Pm) as (cs & <- & L); [rewrite Sm; eapply is_perm_len; eauto|]. destruct (make_perm n cs Pw) as (p & Pp & H). exists p. split; auto. rewrite <- L. apply cyclists_good. apply hc_cyclists; auto; [|apply Pw]. rewrite L. unfold tn. apply Forall_map, Forall_forall. intros x Hx. pose proof (Pm x Hx). lia.
Qed.

Lemma allw_len n mu p : ppos mu -> cycle_type n p mu -> length (allw n (tn mu) p) = zz (tn mu).
Proof.
  intros Pm (P & cs & (Pc & H) & L). apply lens_tn in L. apply (enum_len (img p) (tn mu) (pts n) cs).
  - apply pts_nodup.
  - apply perm_pts; auto.
  - apply hc_cyclists; auto; [|apply Pc]. rewrite L. unfold tn. apply Forall_map, Forall_forall. intros x Hx. pose proof (Pm x Hx). lia.
  - unfold lens in L. rewrite L. apply Permutation_refl.
Qed.

Lemma class_count n mu K : ppos mu -> zsum mu = n -> NoDup K -> (forall p, In p K <-> cycle_type n p mu) -> (Z.of_nat (length K) * Z.of_nat (zz (tn mu)))%Z = zfact n.
Proof.
  intros Pm Sm NK HK. pose proof (zsum_ppos mu Pm) as Hn. rewrite Sm in Hn.
  assert (lists_Sn n (classes n K (tn mu))) as LS.
  { split.
    - unfold classes. assert (forall p, In p K -> is_perm n p) as HP by (intros p Hp; apply HK in Hp; apply Hp). clear HK. induction K as [|p K IH]; [constructor|]. cbn [flat_map]. inversion NK; subst. apply NoDup_app_iff'. split; [apply enum_nodup, pts_nodup|]. split; [apply IH; auto; intros q Hq; apply HP; cbn; auto|].
      intros w Hw Hw'. apply in_flat_map in Hw' as (q & Hq & Hw'). unfold allw in *. apply enum_in in Hw as (A & B); [|apply pts_nodup]. apply enum_in in Hw' as (A' & B'); [|apply pts_nodup]. assert (p = q) as ->; [|contradiction]. apply (good_unique (zsum mu) p q (tn mu) w); auto; [apply perm_pts; auto|apply HP; cbn; auto|apply HP; cbn; auto].
    - intros w. unfold classes. rewrite in_flat_map. split.
      + intros (p & Hp & Hw). apply enum_in in Hw as (A & B); [|apply pts_nodup]. apply perm_pts; auto.
      + intros Pw. destruct (good_exists n mu w Pm Sm Pw) as (p & Pp & G). exists p. split; [apply HK, cycle_type_iff; auto; split; auto; exists w; auto|]. apply enum_in; [apply pts_nodup|]. split; auto. apply perm_pts; auto. }
  rewrite <- (lists_Sn_len n _ Hn LS). unfold zlen, classes. rewrite len_flat_map.
  rewrite (map_ext_in _ (fun _ => zz (tn mu))) by (intros p Hp; apply allw_len; auto; apply HK; auto).
  clear. induction K as [|p K IH]; [reflexivity|]. cbn [map length]. change (nsum (zz (tn mu) :: map (fun _ => zz (tn mu)) K)) with (zz (tn mu) + nsum (map (fun _ => zz (tn mu)) K))%nat. lia.
Qed.

Lemma class_list n mu : ppos mu -> zsum mu = n -> exists K, NoDup K /\ forall p, In p K <-> cycle_type n p mu.
Proof.
  intros Pm Sm. pose proof (zsum_ppos mu Pm) as Hn. rewrite Sm in Hn.
  assert (forall p, {w | In w (all_perms n) /\ In w (allw n (tn mu) p)} + {forall w, In w (all_perms n) -> ~ In w (allw n (tn mu) p)}) as D.
  { intros p. induction (all_perms n) as [|w L IH]; [right; auto|]. destruct (in_dec (list_eq_dec Z.eq_dec) w (allw n (tn mu) p)) as [H|H]; [left; exists w; cbn; auto|]. destruct IH as [(w' & A & B)|IH]; [left; exists w'; cbn; auto|right]. intros w' [<-|Hw']; auto. }
  destruct (all_perms_lists n Hn) as (NA & HA).
  exists (filter (fun p => if D p then true else false) (all_perms n)). split; [apply NoDup_filter; auto|]. intros p. rewrite filter_In, cycle_type_iff, HA by auto. split.
  - intros (Pp & H). split; auto. destruct (D p) as [(w & A & B)|]; [|discriminate]. exists w. apply HA in A. split; auto. apply enum_in in B; [tauto|apply pts_nodup].
  - intros (Pp & w & Pw & G). split; auto. destruct (D p) as [|N]; auto. destruct (N w); [apply HA; auto|]. apply enum_in; [apply pts_nodup|]. split; auto. apply perm_pts; auto.
Qed.

(* ---- the loop ---- *)

Definition occ (x : Z) (l : list Z) : Z := Z.of_nat (count_occ Z.eq_dec l x).
Fixpoint zzz (mu : list Z) : Z := match mu with [] => 1 | m :: mu' => m * occ m mu * zzz mu' end%Z.
Lemma count_tn mu m : ppos mu -> (1 <= m)%Z -> count_occ Nat.eq_dec (tn mu) (Z.to_nat m) = count_occ Z.eq_dec mu m.
Proof.
  intros P H. induction mu as [|x mu IH]; auto. apply ppos_inv in P as (P1 & P2). cbn [tn map count_occ]. fold (tn mu). rewrite IH by auto. destruct (Nat.eq_dec (Z.to_nat x) (Z.to_nat m)), (Z.eq_dec x m); auto; lia.
Qed.
Lemma zzz_zz mu : ppos mu -> Z.of_nat (zz (tn mu)) = zzz mu.
Proof.
  induction mu as [|m mu IH]; intros P; auto. pose proof P as P0. apply ppos_inv in P as (P1 & P2). cbn [zzz]. rewrite <- IH by auto. unfold occ. rewrite <- (count_tn (m :: mu) m) by auto. cbn [tn map]. cbn [zz]. fold (tn mu). rewrite !Nat2Z.inj_mul, Z2Nat.id by lia. auto.
Qed.
Lemma occ_perm x l l' : Permutation l l' -> occ x l = occ x l'.
Proof. intros H. unfold occ. f_equal. apply (Permutation_count_occ Z.eq_dec). auto. Qed.
Lemma occ_cons x y l : occ x (y :: l) = ((if Z.eq_dec y x then 1 else 0) + occ x l)%Z.
Proof. unfold occ. cbn. destruct (Z.eq_dec y x); lia. Qed.
Lemma zzz_perm l l' : Permutation l l' -> zzz l = zzz l'.
Proof.
  intros H. induction H; auto.
  - cbn [zzz]. rewrite IHPermutation, (occ_perm x (x :: l) (x :: l')); auto.
  - cbn [zzz]. rewrite !occ_cons. destruct (Z.eq_dec y y), (Z.eq_dec x x), (Z.eq_dec x y), (Z.eq_dec y x); subst; try contradiction; try congruence; lia.
  - congruence.
Qed.
Lemma zzz_pos l : ppos l -> (0 < zzz l)%Z.
Proof. induction l as [|x l IH]; intros P; cbn [zzz]; [lia|]. apply ppos_inv in P as (P1 & P2). specialize (IH P2). rewrite occ_cons. destruct (Z.eq_dec x x); [|contradiction]. unfold occ. nia. Qed.

Open Scope Z_scope.
Lemma firstn_step (l : list Z) i : 0 <= i < zlen l -> firstn (Z.to_nat (i + 1)) l = firstn (Z.to_nat i) l ++ [znth l i 0].
Proof.
  intros H. unfold zlen in H. replace (Z.to_nat (i + 1)) with (S (Z.to_nat i)) by lia. unfold znth. destruct (i <? 0) eqn:E; [lia|]. assert (Z.to_nat i < length l)%nat as L by lia. revert L. generalize (Z.to_nat i). clear. intros k. revert l. induction k as [|k IH]; intros [|x l] L; cbn in L; try lia; auto. cbn [firstn app nth]. f_equal. apply IH. lia.
Qed.

Definition csinv (l : list Z) (i : Z) (st : Z * Z * Z) : Prop :=
  let '(prev, count, t) := st in
  prev = znth l (i - 1) 0 /\ count = occ prev (firstn (Z.to_nat i) l) /\ 1 <= count /\ cs_close t prev count = zzz (firstn (Z.to_nat i) l).

Lemma sorted_firstn l i x : StronglySorted Z.ge l -> 0 <= i < zlen l -> In x (firstn (Z.to_nat i) l) -> znth l i 0 <= x.
Proof.
  intros S H Hx. rewrite <- (firstn_skipn (Z.to_nat i) l) in S. assert (In (znth l i 0) (skipn (Z.to_nat i) l)) as I.
  { unfold znth. destruct (i <? 0) eqn:E; [lia|]. unfold zlen in H. rewrite <- (firstn_skipn (Z.to_nat i) l) at 1. rewrite app_nth2; rewrite firstn_length; [|lia]. apply nth_In. rewrite skipn_length. lia. }
  revert S Hx I. generalize (firstn (Z.to_nat i) l) (skipn (Z.to_nat i) l). intros a b. clear. induction a as [|y a IH]; intros S Hx I; [contradiction|]. cbn in S. inversion S; subst. destruct Hx as [<-|Hx]; auto. rewrite Forall_forall in H2. assert (y >= znth l i 0); [|lia]. apply H2. apply in_or_app. auto.
Qed.

Lemma class_size_loop n l : is_part n l -> 1 <= n -> class_size n l = cdiv (zfact n) (zzz l).
Proof.
  intros P Hn. pose proof (is_part_ppos n l P) as PP. assert (0 < zlen l) as L. { pose proof (zlen_nonneg l). destruct (Z.eq_dec (zlen l) 0) as [E|]; [|lia]. destruct l; [|rewrite zlen_cons in E; pose proof (zlen_nonneg l); lia]. destruct P as (_ & _ & Q). cbn in Q. lia. }
  unfold class_size. destruct (Z.eqb_spec (zlen l) 0); [lia|]. rewrite (rd_ok l 0 0) by lia. cbn [bind].
  assert (exists st, zfor 1 (zlen l) (fun i st => let '(prev, count, t) := st in x <- rd l i ;; if x =? prev then Ret (prev, count + 1, t) else y <- rd l i ;; Ret (y, 1, cs_close t prev count)) (znth l 0 0, 1, 1) = Ret st /\ csinv l (zlen l) st) as (st & E & I).
  { apply zfor_inv; try lia.
    - unfold csinv. assert (firstn (Z.to_nat 1) l = firstn (Z.to_nat 0) l ++ [znth l 0 0]) as -> by (apply (firstn_step l 0); lia). change (firstn (Z.to_nat 0) l ++ [znth l 0 0]) with [znth l 0 0]. split; auto. cbn [zzz]. rewrite !occ_cons. destruct (Z.eq_dec (znth l 0 0) (znth l 0 0)); [|contradiction]. change (occ (znth l 0 0) []) with 0. split; [lia|]. split; [lia|]. unfold cs_close. rewrite Z.pow_1_r. change (zfact 1) with 1. lia.
    - intros i ((prev, count), t) Hi (I1 & I2 & I3 & I4). rewrite (rd_ok l i 0) by lia. cbn [bind]. destruct (Z.eqb_spec (znth l i 0) prev) as [E|E]; cbn [bind].
      + eexists. split; [reflexivity|]. cbn [csinv]. replace (i + 1 - 1) with i by lia. rewrite firstn_step by lia. set (F := firstn (Z.to_nat i) l) in *. rewrite E.
        assert (Permutation (F ++ [prev]) (prev :: F)) as PF by (apply Permutation_sym, Permutation_cons_append). split; auto. split; [rewrite (occ_perm _ _ _ PF), occ_cons; destruct (Z.eq_dec prev prev); [lia|contradiction]|]. split; [lia|].
        rewrite (zzz_perm _ _ PF). cbn [zzz]. rewrite <- I4, occ_cons. destruct (Z.eq_dec prev prev); [|contradiction]. rewrite <- I2. unfold cs_close. rewrite Z.pow_add_r by lia. rewrite (zfact_step (count + 1)) by lia. replace (count + 1 - 1) with count by lia. rewrite Z.pow_1_r. ring.
      + eexists. split; [reflexivity|]. cbn [csinv]. replace (i + 1 - 1) with i by lia. rewrite firstn_step by lia. set (F := firstn (Z.to_nat i) l) in *. set (x := znth l i 0) in *.
        assert (Permutation (F ++ [x]) (x :: F)) as PF by (apply Permutation_sym, Permutation_cons_append).
        assert (occ x F = 0) as O0.
        { unfold occ. destruct (in_dec Z.eq_dec x F) as [H|H]; [|apply (count_occ_not_In Z.eq_dec) in H; lia]. exfalso. destruct P as (_ & S & _).
          assert (F = firstn (Z.to_nat (i - 1)) l ++ [prev]) as EF. { unfold F. replace i with (i - 1 + 1) at 1 by lia. rewrite firstn_step by lia. rewrite <- I1. auto. }
          rewrite EF in H. apply in_app_or in H as [H|[H|[]]]; [|congruence]. pose proof (sorted_firstn l (i - 1) x S ltac:(lia) H) as A. rewrite <- I1 in A. assert (x <= prev) as B. { unfold x. apply (sorted_firstn l i prev S); [lia|]. fold F. rewrite EF. apply in_or_app. cbn. auto. } lia. }
        split; auto. split; [rewrite (occ_perm _ _ _ PF), occ_cons; destruct (Z.eq_dec x x); [lia|contradiction]|]. split; [lia|].
        rewrite (zzz_perm _ _ PF). cbn [zzz]. rewrite <- I4, occ_cons. destruct (Z.eq_dec x x); [|contradiction]. rewrite O0. unfold cs_close at 1. rewrite Z.pow_1_r. change (zfact 1) with 1. ring. }
  rewrite E. cbn [bind]. destruct st as ((prev, count), t). destruct I as (_ & _ & _ & I). rewrite I. unfold zlen. rewrite Nat2Z.id, firstn_all. auto.
Qed.

Lemma class_size_ok n mu : is_part n mu -> 1 <= n -> exists K, NoDup K /\ (forall p, In p K <-> cycle_type n p mu) /\ class_size n mu = Ret (Z.of_nat (length K)) /\ Z.of_nat (length K) * zzz mu = zfact n.
Proof.
  intros P Hn. pose proof (is_part_ppos n mu P) as PP. assert (zsum mu = n) as Sm by apply P. destruct (class_list n mu PP Sm) as (K & NK & HK). exists K. split; auto. split; auto.
  pose proof (class_count n mu K PP Sm NK HK) as C. rewrite zzz_zz in C by auto. split; auto. rewrite class_size_loop by auto. pose proof (zzz_pos mu PP). unfold cdiv. destruct (Z.eqb_spec (zzz mu) 0); [lia|]. f_equal. rewrite <- C, Z.quot_mul by lia. auto.
Qed.

Lemma class_size_counts n mu K : is_part n mu -> 1 <= n -> NoDup K -> (forall p, In p K <-> cycle_type n p mu) -> class_size n mu = Ret (Z.of_nat (length K)).
Proof.
  intros P Hn NK HK. destruct (class_size_ok n mu P Hn) as (K' & NK' & HK' & E & _). rewrite E. do 2 f_equal. apply Permutation_length, NoDup_Permutation; auto. intros p. rewrite HK, HK'. tauto.
Qed.

(* ---- order ---- *)

Lemma order3_perm {K} (lt : K -> K -> outcome bool) x0 x1 x2 a b c : order3 lt x0 x1 x2 = Ret (a, b, c) -> Permutation [a; b; c] [x0; x1; x2].
Proof.
  unfold order3. intros H. destruct (lt x0 x1) as [[|]| | |]; try discriminate; cbn [bind] in H.
  - destruct (lt x1 x2) as [[|]| | |]; try discriminate; cbn [bind] in H; [injection H as <- <- <-; auto|]. destruct (lt x0 x2) as [[|]| | |]; try discriminate; cbn [bind] in H; injection H as <- <- <-.
    + apply perm_skip, perm_swap.
    + eapply perm_trans; [apply perm_swap|]. apply perm_skip, perm_swap.
  - destruct (lt x0 x2) as [[|]| | |]; try discriminate; cbn [bind] in H; [injection H as <- <- <-; apply perm_swap|]. destruct (lt x1 x2) as [[|]| | |]; try discriminate; cbn [bind] in H; injection H as <- <- <-.
    + eapply perm_trans; [apply perm_skip, perm_swap|]. apply perm_swap.
    + eapply perm_trans; [apply perm_swap|]. apply perm_skip, perm_swap.
Qed.

(* the result is increasing except when the arguments satisfy x2 <= x1 < x0 *)
Lemma order3_sorted {K} (lt : K -> K -> outcome bool) (D : K -> Prop) (R : K -> K -> Prop) x0 x1 x2 :
  (forall a b, D a -> D b -> exists v, lt a b = Ret v /\ (v = true <-> R a b)) -> (forall a, ~ R a a) -> (forall a b c, R a b -> R b c -> R a c) -> (forall a b, D a -> D b -> R a b \/ a = b \/ R b a) ->
  D x0 -> D x1 -> D x2 -> exists a b c, order3 lt x0 x1 x2 = Ret (a, b, c) /\ Permutation [a; b; c] [x0; x1; x2] /\ ((~ R b a /\ ~ R c b) <-> ~ (~ R x1 x2 /\ R x1 x0)).
Proof.
  intros H I T TT D0 D1 D2.
  assert (forall a b, D a -> D b -> lt a b = Ret true /\ R a b \/ lt a b = Ret false /\ ~ R a b) as HH.
  { intros a b A B. destruct (H a b A B) as (v & E & Q). destruct v; [left; split; auto; apply Q; auto|right; split; auto; intros G; apply Q in G; discriminate]. }
  assert (exists r, order3 lt x0 x1 x2 = Ret r /\ let '(a, b, c) := r in (~ R b a /\ ~ R c b) <-> ~ (~ R x1 x2 /\ R x1 x0)) as (((a, b), c) & E & Q).
  { unfold order3. pose proof (TT x0 x1 D0 D1) as T1. pose proof (TT x0 x2 D0 D2) as T2. pose proof (TT x1 x2 D1 D2) as T3. 
    assert (forall u v, R u v -> R v u -> False) as AS by (intros u v U V; exact (I u (T _ _ _ U V))).
    destruct (HH x0 x1 D0 D1) as [(-> & A)|(-> & A)], (HH x1 x2 D1 D2) as [(E1 & B)|(E1 & B)], (HH x0 x2 D0 D2) as [(E2 & C)|(E2 & C)]; rewrite ?E1, ?E2; cbn [bind]; rewrite ?E1, ?E2; cbn [bind]; eexists; (split; [reflexivity|]); cbn beta iota.
    all: destruct T1 as [T1|[T1|T1]], T2 as [T2|[T2|T2]], T3 as [T3|[T3|T3]]; try contradiction; subst; try contradiction.
    all: split; [intros (X & Y) (U & V)|intros X; split; intros Y]; try contradiction; eauto. }
  exists a, b, c. split; auto. split; auto. apply (order3_perm lt); auto.
Qed.
