(* The products of irreps in the machine's arithmetic. *)
From Coq Require Import ZArith List Bool Lia Reals Lra Permutation.
From Verif Require Import Model_Base Model_Perm Model_Part Model_Comb Model_Tab Model_Irrep Model_Type Model_Char Model_CG Model_Float Spec_Perm Spec_Part Spec_Tab Spec_Rep Spec_Four Spec_Type Spec_CG Spec_Sign.
From Verif Require Import Proof_Base Proof_Part Proof_PartProps Proof_TabProps Proof_Type Proof_Rept Proof_CG Proof_UpDown Proof_Prune Proof_CharBank Proof_Triv Proof_Restr Proof_Perm Proof_Tab Proof_Sum Proof_Rep Proof_Mat Proof_Schur Proof_FFTmath Proof_CGvec1 Proof_CGvec2 Proof_Float4 Proof_Float7 Proof_FloatRun Proof_Hook Proof_Irrep Proof_Complete Proof_Kron Proof_CGdown Proof_Sign4.
Import ListNotations.
Open Scope Z_scope.

Definition mm (a b p : list Z) : Z := match f_coeff ieee a b p with Ret m => m | _ => 0 end.

Lemma f_product_list n a b : 1 <= n <= 8 -> is_part n a -> is_part n b ->
  f_product ieee a b = Ret (flat_map (fun p => if (n - (2 * n - row a 0 - row b 0) <=? row p 0) && (0 <? mm a b p) then [(p, mm a b p)] else []) (pl n)).
Proof.
  intros Hn Pa Pb. unfold f_product. rewrite ip_getn_zsum, (is_part_sum n a Pa), !(ip_get0 n) by (auto; lia). cbn [bind]. rewrite integer_partitions_ok by lia. cbn [bind].
  match goal with |- foldM ?f _ _ = _ => set (body := f) end.
  assert (forall L acc, Forall (is_part n) L -> foldM body L acc = Ret (acc ++ flat_map (fun p => if (n - (2 * n - row a 0 - row b 0) <=? row p 0) && (0 <? mm a b p) then [(p, mm a b p)] else []) L)) as K.
  { induction L as [|p L IH]; intros acc F; cbn [foldM flat_map]; [rewrite app_nil_r; auto|]. inversion F as [|? ? Pp F']; subst. unfold body at 1. rewrite (ip_get0 n p) by (auto; lia). cbn [bind].
    destruct (n - (2 * n - row a 0 - row b 0) <=? row p 0); cbn [andb bind]; [|cbn [app]; rewrite IH by auto; auto].
    destruct (kz_ok n a b p ltac:(lia) Pa Pb Pp) as (_ & K0). assert (cg_mult n a b p (kz n a b p)) as C by (apply cg_mult_kz; auto; lia).
    assert (exists m, f_coeff ieee a b p = Ret m) as (m & Em) by (destruct (ieee_coeff_8 n a b p _ Hn Pa Pb Pp C) as [E|(_ & E)]; eauto).
    unfold mm at 1 2. rewrite Em. cbn [bind]. destruct (0 <? m); cbn [bind app]; [|apply IH; auto]. rewrite IH, <- app_assoc by auto. auto. }
  apply K. apply Forall_forall. intros l. apply in_pl; lia.
Qed.

Lemma f_product_ok n a b : 1 <= n <= 8 -> is_part n a -> is_part n b -> exists tau, f_product ieee a b = Ret tau /\ NoDup (map fst tau) /\
  (forall c m, In (c, m) tau -> is_part n c /\ 0 < m /\ (cg_mult n a b c m \/ cg_mult n a b c (m + 1))) /\
  (forall c m, is_part n c -> cg_mult n a b c m -> 2 <= m -> In c (map fst tau)).
Proof.
  intros Hn Pa Pb. rewrite (f_product_list n a b Hn Pa Pb). eexists. split; [reflexivity|].
  set (g := fun p => if (n - (2 * n - row a 0 - row b 0) <=? row p 0) && (0 <? mm a b p) then [(p, mm a b p)] else []).
  assert (forall c m, In (c, m) (flat_map g (pl n)) <-> is_part n c /\ (n - (2 * n - row a 0 - row b 0) <= row c 0) /\ 0 < m /\ m = mm a b c) as I.
  { intros c m. rewrite in_flat_map. split.
    - intros (p & Hp & H). apply in_pl in Hp; [|lia]. unfold g in H. destruct (Z.leb_spec (n - (2 * n - row a 0 - row b 0)) (row p 0)); [|destruct H]. destruct (Z.ltb_spec 0 (mm a b p)); [|destruct H]. destruct H as [H|[]]. injection H as E1 E2. subst p m. auto.
    - intros (Pc & H1 & H2 & ->). exists c. split; [apply in_pl; [lia|auto]|]. unfold g. rewrite (proj2 (Z.leb_le _ _)), (proj2 (Z.ltb_lt _ _)) by auto. left; auto. }
  split; [|split].
  - assert (forall L, NoDup L -> NoDup (map fst (flat_map g L))) as N; [|apply N, NoDup_plist].
    assert (forall L c, In c (map fst (flat_map g L)) -> In c L) as J.
    { intros L c H. apply in_map_iff in H as ((c' & m) & <- & H). apply in_flat_map in H as (p & Hp & H). unfold g in H. destruct (_ && _); [|destruct H]. destruct H as [H|[]]. injection H as -> _. auto. }
    induction L as [|p L IH]; intros N; [constructor|]. inversion N as [|? ? N1 N2]; subst. cbn [flat_map]. rewrite map_app. unfold g at 1. destruct (_ && _); cbn [map app fst]; auto. constructor; auto.
  - intros c m H. apply I in H as (Pc & _ & H0 & Em). split; auto. split; auto. assert (cg_mult n a b c (kz n a b c)) as C by (apply cg_mult_kz; auto; lia).
    unfold mm in Em. destruct (ieee_coeff_8 n a b c _ Hn Pa Pb Pc C) as [E|(_ & E)]; rewrite E in Em; [left; subst; auto|right]. replace (m + 1) with (kz n a b c) by lia. auto.
  - intros c m Pc C Hm. apply in_map_iff. exists (c, mm a b c). split; auto. apply I. split; auto. split.
    + apply cg_mult_kz in C; auto; [|lia]. destruct (kz_ok n a b c ltac:(lia) Pa Pb Pc) as (E & _). destruct (Z.le_gt_cases (n - (2 * n - row a 0 - row b 0)) (row c 0)) as [|G]; auto. exfalso.
      rewrite (kron_pruned n ltac:(lia) a b c) in E by (auto; lia). apply eq_IZR in E. lia.
    + split; auto. unfold mm. destruct (ieee_coeff_8 n a b c _ Hn Pa Pb Pc C) as [E|(_ & E)]; rewrite E; lia.
Qed.

Lemma f_product_in n a b tau c m : 1 <= n <= 8 -> is_part n a -> is_part n b -> f_product ieee a b = Ret tau -> In (c, m) tau -> m = mm a b c.
Proof.
  intros Hn Pa Pb E J. rewrite (f_product_list n) in E by auto. apply Ret_inj in E. rewrite <- E in J. apply in_flat_map in J as (p & _ & J). destruct (_ && _) in J; [|destruct J]. destruct J as [J|[]]. congruence.
Qed.
Lemma mm_ret a b c k : f_coeff ieee a b c = Ret k -> mm a b c = k.
Proof. unfold mm. intros ->. auto. Qed.

Lemma bind_Ret {A B} (m : outcome A) (k : A -> outcome B) r : bind m k = Ret r -> exists x, m = Ret x /\ k x = Ret r.
Proof. destruct m; cbn [bind]; try discriminate. eauto. Qed.

(* a multiplicity from the tables of values *)
Lemma mm_fco n a b c : 1 <= n <= 8 -> is_part n a -> is_part n b -> is_part n c -> f_coeff ieee a b c = Ret (fco n (fv a) (fv b) (fv c)).
Proof.
  intros Hn Pa Pb Pc. assert (cg_mult n a b c (kz n a b c)) as C by (apply cg_mult_kz; auto; lia).
  assert (exists m, f_coeff ieee a b c = Ret m) as (m & Em) by (destruct (ieee_coeff_8 n a b c _ Hn Pa Pb Pc C) as [E|(_ & E)]; eauto).
  rewrite Em. f_equal. unfold f_coeff in Em. rewrite !ip_getn_zsum, (is_part_sum n a Pa), (is_part_sum n b Pb), (is_part_sum n c Pc) in Em. unfold assert_ in Em. rewrite Z.eqb_refl in Em. cbn [bind] in Em.
  apply bind_Ret in Em as (va & Ea & Em). apply bind_Ret in Em as (vb & Eb & Em). apply bind_Ret in Em as (vc & Ec & Em).
  unfold fv. rewrite Ea, Eb, Ec. unfold fco. rewrite Em. auto.
Qed.

Lemma hk_dd n l : 1 <= n -> is_part n l -> hk l = dd n l.
Proof.
  intros Hn P. unfold hk. destruct (mkirr_ok n l P Hn) as (_ & _ & G). assert (is_part (Z.of_nat (Z.to_nat n)) l) as P' by (rewrite Z2Nat.id by lia; auto). rewrite (hooklength_ok _ _ P').
  destruct G as (_ & _ & _ & G). unfold io_d. rewrite G. unfold zlen. rewrite map_length. reflexivity.
Qed.

Lemma kz_dim n a b : 1 <= n -> is_part n a -> is_part n b -> zsum (map (fun c => kz n a b c * dd n c) (pl n)) = dd n a * dd n b.
Proof.
  intros Hn Pa Pb. apply eq_IZR. rewrite IZR_zsum, mult_IZR.
  change (IZR (dd n a) * IZR (dd n b))%R with (dimR n a * dimR n b)%R. rewrite <- !(chi_id n Hn) by auto. rewrite (kron_decompose n Hn a b) by (auto; apply is_perm_pid; lia).
  apply lsum_ext. intros c Hc. apply in_pl in Hc; auto. rewrite mult_IZR, (proj1 (kz_ok n a b c Hn Pa Pb Hc)), (chi_id n Hn) by auto. reflexivity.
Qed.

Lemma dd_pos n l : 1 <= n -> is_part n l -> 0 < dd n l.
Proof. intros Hn P. apply lt_IZR. apply (dimR_pos n l P Hn). Qed.

Lemma sums_meet (f g w : list Z -> Z) L : (forall c, In c L -> f c <= g c /\ 0 < w c) -> zsum (map (fun c => g c * w c) L) = fold_right (fun c s => f c * w c + s) 0 L -> forall c, In c L -> f c = g c.
Proof.
  intros H E. assert (forall L', (forall c, In c L' -> f c <= g c /\ 0 < w c) -> fold_right (fun c s => f c * w c + s) 0 L' <= zsum (map (fun c => g c * w c) L')) as K.
  { induction L' as [|c L' IH]; intros F; [reflexivity|]. cbn [map fold_right]. change (zsum (?x :: ?y)) with (x + zsum y). specialize (IH (fun d Hd => F d (or_intror Hd))). pose proof (F c (or_introl eq_refl)). change (zsum (g c * w c :: map (fun c0 => g c0 * w c0) L')) with (g c * w c + zsum (map (fun c0 => g c0 * w c0) L')). nia. }
  revert H E. induction L as [|c L IH]; intros H E d [].
  - subst d. cbn [map fold_right] in E. change (zsum (g c * w c :: map (fun c0 => g c0 * w c0) L)) with (g c * w c + zsum (map (fun c0 => g c0 * w c0) L)) in E. pose proof (K L (fun d Hd => H d (or_intror Hd))). pose proof (H c (or_introl eq_refl)). nia.
  - apply IH; auto; [intros; apply H; right; auto|]. cbn [map fold_right] in E. change (zsum (g c * w c :: map (fun c0 => g c0 * w c0) L)) with (g c * w c + zsum (map (fun c0 => g c0 * w c0) L)) in E. pose proof (K L (fun d Hd => H d (or_intror Hd))). pose proof (H c (or_introl eq_refl)). nia.
Qed.

(* up to S_6 every multiplicity is exact *)
Lemma exact_6 n a b c m : 1 <= n <= 6 -> is_part n a -> is_part n b -> is_part n c -> cg_mult n a b c m -> f_coeff ieee a b c = Ret m.
Proof.
  intros Hn Pa Pb Pc C. assert (1 <= n) as H1 by lia. apply cg_mult_kz in C; auto. subst m. rewrite (mm_fco n) by (auto; lia). f_equal.
  pose proof (runs_6 n Hn) as R. unfold adds_up in R. cbv zeta in R. rewrite forallb_forall in R. specialize (R (fv a, hk a) (in_map (fun l => (fv l, hk l)) _ _ (proj2 (in_pl n a H1) Pa))). cbv beta in R.
  rewrite forallb_forall in R. specialize (R (fv b, hk b) (in_map (fun l => (fv l, hk l)) _ _ (proj2 (in_pl n b H1) Pb))). cbv beta in R. cbn [fst snd] in R. apply Z.eqb_eq in R. rewrite !(hk_dd n) in R by auto. rewrite <- (kz_dim n a b) in R by auto.
  apply (sums_meet (fun c => fco n (fv a) (fv b) (fv c)) (fun c => kz n a b c) (fun c => dd n c) (pl n)); [| |apply in_pl; auto].
  - intros d Hd. apply in_pl in Hd; auto. split; [|apply dd_pos; auto]. assert (cg_mult n a b d (kz n a b d)) as C by (apply cg_mult_kz; auto).
    pose proof (mm_fco n a b d ltac:(lia) Pa Pb Hd) as E. destruct (ieee_coeff_8 n a b d _ ltac:(lia) Pa Pb Hd C) as [F|(_ & F)]; rewrite F in E; apply Ret_inj in E; lia.
  - rewrite <- R. clear R. assert (forall L, Forall (is_part n) L -> fold_right (fun c s => fco n (fv a) (fv b) (fst c) * snd c + s) 0 (map (fun l => (fv l, hk l)) L) = fold_right (fun c s => fco n (fv a) (fv b) (fv c) * dd n c + s) 0 L) as K; [|apply K, Forall_forall; intros l; apply in_pl; auto].
    induction L as [|l L IH]; intros F; [reflexivity|]. inversion F; subst. cbn [map fold_right fst snd]. rewrite IH, (hk_dd n) by auto. reflexivity.
Qed.

Lemma exact_product_6 n a b : 1 <= n <= 6 -> is_part n a -> is_part n b -> exists tau, f_product ieee a b = Ret tau /\ NoDup (map fst tau) /\
  forall c m, In (c, m) tau <-> is_part n c /\ 0 < m /\ cg_mult n a b c m.
Proof.
  intros Hn Pa Pb. assert (1 <= n) as H1 by lia. destruct (f_product_ok n a b ltac:(lia) Pa Pb) as (tau & E & N & I & _). exists tau. split; auto. split; auto. intros c m. split.
  - intros J. destruct (I c m J) as (Pc & Hm & _). split; auto. split; auto. pose proof (f_product_in n a b tau c m ltac:(lia) Pa Pb E J) as Em. assert (cg_mult n a b c (kz n a b c)) as C by (apply cg_mult_kz; auto). rewrite (mm_ret _ _ _ _ (exact_6 n a b c _ Hn Pa Pb Pc C)) in Em. subst m. auto.
  - intros (Pc & Hm & C). pose proof (mm_ret _ _ _ _ (exact_6 n a b c m Hn Pa Pb Pc C)) as Em. rewrite (f_product_list n) in E by (auto; lia). apply Ret_inj in E. rewrite <- E. apply in_flat_map. exists c. split; [apply in_pl; auto|]. rewrite Em.
    apply cg_mult_kz in C; auto. destruct (Z.leb_spec (n - (2 * n - row a 0 - row b 0)) (row c 0)) as [_|G]; [|exfalso; destruct (kz_ok n a b c H1 Pa Pb Pc) as (E' & _); rewrite (kron_pruned n H1 a b c) in E' by (auto; lia); apply eq_IZR in E'; lia].
    rewrite (proj2 (Z.ltb_lt 0 m)) by auto. left. auto.
Qed.

Lemma runs_of n a b c k k' : 1 <= n <= 8 -> is_part n a -> is_part n b -> is_part n c ->
  pair_at n a b c = Ret (k, k') ->
  f_coeff ieee a b b = Ret k /\ f_coeff ieee a c c = Ret k'.
Proof.
  intros Hn P Q S R. rewrite !(mm_fco n) by auto. unfold pair_at in R. apply bind_Ret in R as (x & Ex & R). apply bind_Ret in R as (y & Ey & R). apply bind_Ret in R as (z & Ez & R). apply bind_Ret in R as (i & Ek & R). apply bind_Ret in R as (j & Ek' & R).
  unfold fv. rewrite Ex, Ey, Ez. unfold fco. rewrite Ek, Ek'. apply Ret_inj in R. clear - R. split; f_equal; congruence.
Qed.
Lemma runs_of_7 : f_coeff ieee [5; 2] [2; 2; 2; 1] [2; 2; 2; 1] = Ret 0 /\ f_coeff ieee [5; 2] [4; 3] [4; 3] = Ret 1.
Proof.
  assert (is_part 7 [5; 2]) as P by (apply decb_part; reflexivity). assert (is_part 7 [2; 2; 2; 1]) as Q by (apply decb_part; reflexivity). assert (is_part 7 [4; 3]) as S by (apply decb_part; reflexivity).
  assert (1 <= 7 <= 8) as H by lia. exact (runs_of 7 [5; 2] [2; 2; 2; 1] [4; 3] 0 1 H P Q S run_7).
Qed.

(* the two runs leave one value for the multiplicity, which transposing two shapes does not change *)
Lemma lost_gen n a b c : 1 <= n <= 8 -> is_part n a -> is_part n b -> is_part n c -> transposed b = c -> f_coeff ieee a b b = Ret 0 -> f_coeff ieee a c c = Ret 1 ->
  cg_mult n a b b 1 /\ exists tau, f_product ieee a b = Ret tau /\ ~ In b (map fst tau).
Proof.
  intros Hn P Q S T R0 R1. assert (1 <= n) as H1 by lia. assert (cg_mult n b b a (kz n b b a)) as C by (apply cg_mult_kz; auto).
  assert (cg_mult n a b b (kz n b b a)) as C0. { apply cg_mult_kz; auto. apply kz_perm. apply Permutation_sym. apply (Permutation_cons_append [b; b] a). }
  assert (cg_mult n a c c (kz n b b a)) as C1. { apply cg_mult_kz; auto. apply (mult_transposed n b b a _ H1 Q Q P) in C. rewrite T in C. apply cg_mult_kz in C; auto. rewrite C. apply kz_perm. apply Permutation_sym. apply (Permutation_cons_append [c; c] a). }
  assert (kz n b b a = 1) as K.
  { pose proof (ieee_coeff_8 n _ _ _ _ Hn P Q Q C0) as X0. pose proof (ieee_coeff_8 n _ _ _ _ Hn P S S C1) as X1. rewrite R0 in X0. rewrite R1 in X1. clear - X0 X1.
    destruct X0 as [X0|(_ & X0)]; destruct X1 as [X1|(_ & X1)]; apply Ret_inj in X0; apply Ret_inj in X1; lia. }
  rewrite K in C0. split; auto. destruct (f_product_ok n a b Hn P Q) as (tau & E & _ & I & _). exists tau. split; auto.
  intros J. apply in_map_iff in J as ((d & m) & Ec & J). cbn [fst] in Ec. subst d. destruct (I _ _ J) as (_ & Hm & _). pose proof (f_product_in n _ _ _ _ _ Hn P Q E J) as Em. rewrite (mm_ret _ _ _ 0 R0) in Em. clear - Hm Em. lia.
Qed.
Lemma lost : cg_mult 7 [5; 2] [2; 2; 2; 1] [2; 2; 2; 1] 1 /\ f_coeff ieee [5; 2] [2; 2; 2; 1] [2; 2; 2; 1] = Ret 0 /\
  exists tau, f_product ieee [5; 2] [2; 2; 2; 1] = Ret tau /\ ~ In [2; 2; 2; 1] (map fst tau).
Proof.
  assert (is_part 7 [5; 2]) as P by (apply decb_part; reflexivity). assert (is_part 7 [2; 2; 2; 1]) as Q by (apply decb_part; reflexivity). assert (is_part 7 [4; 3]) as S by (apply decb_part; reflexivity).
  assert (1 <= 7 <= 8) as H by lia. assert (transposed [2; 2; 2; 1] = [4; 3]) as T by reflexivity. destruct (lost_gen 7 [5; 2] [2; 2; 2; 1] [4; 3] H P Q S T (proj1 runs_of_7) (proj2 runs_of_7)) as (A & B).
  exact (conj A (conj (proj1 runs_of_7) B)).
Qed.

Lemma character_nearest n l o mu : 1 <= n -> is_part n l -> irr_new l = Ret o -> is_part n mu -> io_d o * (8 * n + io_d o) < 2 ^ 22 ->
  exists a x k, f_character ieee o mu = Ret a /\ Spec_Float.val32 a = Some x /\ irr_character o mu = Ret (IZR k) /\ (Rabs (x - IZR k) < 1 / 2)%R.
Proof.
  intros Hn P E Pm H. destruct (ieee_character n l o mu Hn P E Pm) as (a & x & k & A & B & C & D); [lia|]. exists a, x, k. split; auto. split; auto. split; auto.
  eapply Rle_lt_trans; [exact D|]. apply IZR_lt in H. change (IZR (2 ^ 23)) with 8388608%R. change (IZR (2 ^ 22)) with 4194304%R in H. lra.
Qed.

Lemma coeff_criterion n L D a b c oa ob oc m : 1 <= n <= 12 -> is_part n a -> is_part n b -> is_part n c -> irr_new a = Ret oa -> irr_new b = Ret ob -> irr_new c = Ret oc -> integer_partitions n = Ret L ->
  3 <= D -> io_d oa <= D -> io_d ob <= D -> io_d oc <= D -> D * (96 * (8 * n + D) + 12 * zlen L + 234) < 2 ^ 24 -> cg_mult n a b c m ->
  f_coeff ieee a b c = Ret m \/ 1 <= m /\ f_coeff ieee a b c = Ret (m - 1).
Proof.
  intros Hn Pa Pb Pc Ea Eb Ec EL HD Da Db Dc H C. rewrite integer_partitions_ok in EL by lia. apply Ret_inj in EL. subst L.
  destruct (mkirr_ok n a Pa ltac:(lia)) as (Fa & _). destruct (mkirr_ok n b Pb ltac:(lia)) as (Fb & _). destruct (mkirr_ok n c Pc ltac:(lia)) as (Fc & _).
  rewrite Fa in Ea. rewrite Fb in Eb. rewrite Fc in Ec. apply Ret_inj in Ea, Eb, Ec. subst oa ob oc. apply cg_mult_kz in C; auto; [|lia]. subst m. apply (ieee_coeff n D); auto.
Qed.
