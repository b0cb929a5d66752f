(* Restriction of Clebsch-Gordan products: restricting a product is the product of the restrictions. *)
From Coq Require Import ZArith List Bool Lia ZifyBool Permutation Reals Lra.
From Verif Require Import Model_Base Model_Sn Model_Perm Model_Part Model_Comb Model_Tab Model_Irrep Model_Class Model_Type Model_Char Model_CG.
From Verif Require Import Spec_Perm Spec_Part Spec_Tab Spec_Rep Spec_Four Spec_Type Spec_Char Spec_CG.
From Verif Require Import Proof_Base Proof_Perm Proof_Sn Proof_SnProps Proof_Part Proof_PartProps Proof_Tab Proof_TabProps Proof_Cycles Proof_Cox Proof_Yor Proof_Sum Proof_Irrep Proof_Rep Proof_Mat Proof_IrrepProps Proof_JM Proof_Conn Proof_Schur Proof_Restr Proof_UpDown Proof_Complete Proof_CombBank Proof_Map Proof_Type Proof_Rept Proof_Rept2 Proof_Char Proof_Class Proof_Class2 Proof_Class3 Proof_Kron Proof_Prune Proof_CharBank Proof_CG.
Import Model_Char ListNotations.
Open Scope Z_scope.

(* ---- characters ---- *)
Lemma chi_orth n a b : 1 <= n -> is_part n a -> is_part n b -> (lsum (all_perms n) (fun p => chi n a p * chi n b p) = if pdec a b then IZR (zfact n) else 0)%R.
Proof.
  intros Hn Pa Pb. destruct (mkirr_ok n a Pa Hn) as (Ea & Ga). destruct (mkirr_ok n b Pb Hn) as (Eb & Gb). pose proof (all_perms_lists n ltac:(lia)) as HL.
  assert (forall l, is_part n l -> exists A, (forall p, In p (all_perms n) -> irr_matrix (mkirr n l) p = Ret (A p)) /\ forall p, In p (all_perms n) -> trace (dd n l) (m_at (A p)) = chi n l p) as K.
  { intros l Pl. destruct (mkirr_ok n l Pl Hn) as (El & _).
    exists (fun p => match irr_matrix (mkirr n l) p with Ret M => M | _ => mkMat 0 0 (fun _ _ => 0%R) end).
    assert (forall p, In p (all_perms n) -> exists M, irr_matrix (mkirr n l) p = Ret M /\ trace (dd n l) (m_at M) = chi n l p) as Q.
    { intros p Hp. apply HL in Hp. pose proof (proj2 (irrep_trace_chi n l p Hn Pl Hp (chi n l p)) eq_refl) as (o & M & E1 & E2 & E3). rewrite El in E1. apply Ret_inj in E1. subst o. exists M. auto. }
    split; intros p Hp; destruct (Q p Hp) as (M & -> & E); auto. }
  destruct (K a Pa) as (A & A1 & A2). destruct (K b Pb) as (B & B1 & B2).
  pose proof (characters_orthogonal n a b _ _ _ A B Pa Pb Hn Ea Eb HL A1 B1) as S. change (@sum_over) with (@lsum) in S. rewrite <- zfact_fact in S by lia.
  rewrite (lsum_ext _ _ (fun p => trace (dd n a) (m_at (A p)) * trace (dd n b) (m_at (B p)))%R); [|intros p Hp; rewrite A2, B2; auto]. rewrite S. destruct (list_eq_dec Z.eq_dec a b), (pdec a b); auto; contradiction.
Qed.

Lemma chi_restrict n l q : 2 <= n -> is_part n l -> is_perm (n - 1) q -> chi n l (q ++ [n]) = lsum (belows l) (fun mu => chi (n - 1) mu q).
Proof.
  intros Hn P Hq. unfold chi at 1, trace. rewrite (rsum_boff n l) by auto. unfold belows. rewrite lsum_map. apply lsum_ext. intros r Hr. unfold chi, trace. apply rsum_ext. intros a Ha. rewrite rr_boff by auto. destruct (Z.eq_dec r r); [auto|contradiction].
Qed.

Lemma chi_restrict_mult n l mu : 2 <= n -> is_part n l -> is_part (n - 1) mu -> (lsum (all_perms (n - 1)) (fun q => chi n l (q ++ [n]) * chi (n - 1) mu q) = if isin mu (belows l) then IZR (zfact (n - 1)) else 0)%R.
Proof.
  intros Hn P Pm. destruct (belows_spec n l P ltac:(lia)) as (N & B). pose proof (all_perms_lists (n - 1) ltac:(lia)) as HL.
  rewrite (lsum_ext _ _ (fun q => lsum (belows l) (fun x => chi (n - 1) x q * chi (n - 1) mu q))%R).
  - rewrite lsum_swap. rewrite (lsum_ext _ _ (fun x => if pdec x mu then IZR (zfact (n - 1)) else 0)%R) by (intros x Hx; apply B in Hx as (Px & _); apply chi_orth; auto; lia).
    destruct (isin mu (belows l)) eqn:E.
    + apply isin_true in E. rewrite (lsum_single _ mu); auto; [destruct (pdec mu mu); [auto|contradiction]|]. intros y _ Ne. destruct (pdec y mu); [contradiction|auto].
    + apply lsum_0. intros x Hx. destruct (pdec x mu) as [->|]; auto. apply isin_true in Hx. congruence.
  - intros q Hq. apply HL in Hq. rewrite (chi_restrict n l q) by auto. rewrite lsum_scal_r. auto.
Qed.

(* the multiplicities of the restriction of a product, both ways *)
Lemma kz_restrict n a b mu : 2 <= n -> is_part n a -> is_part n b -> is_part (n - 1) mu ->
  zsum_over (belows a) (fun x => zsum_over (belows b) (fun y => kz (n - 1) x y mu)) = zsum_over (filter (fun c => isin mu (belows c)) (pl n)) (fun c => kz n a b c).
Proof.
  intros Hn Pa Pb Pm. apply eq_IZR. pose proof (all_perms_lists (n - 1) ltac:(lia)) as HL. pose proof (fact_pos (n - 1)) as FP.
  destruct (belows_spec n a Pa ltac:(lia)) as (_ & Ba). destruct (belows_spec n b Pb ltac:(lia)) as (_ & Bb).
  assert (forall q, is_perm (n - 1) q -> is_perm n (q ++ [n])) as HS. { intros q Hq. pose proof (is_perm_snoc (n - 1) q) as W. replace (n - 1 + 1) with n in W by lia. apply W; auto; lia. }
  transitivity (lsum (all_perms (n - 1)) (fun q => chi n a (q ++ [n]) * chi n b (q ++ [n]) * chi (n - 1) mu q) / IZR (zfact (n - 1)))%R.
  - rewrite IZR_zsum. rewrite (lsum_ext _ _ (fun x => lsum (belows b) (fun y => lsum (all_perms (n - 1)) (fun q => chi (n - 1) x q * chi (n - 1) y q * chi (n - 1) mu q) * / IZR (zfact (n - 1))))%R).
    + rewrite (lsum_ext _ _ (fun x => lsum (belows b) (fun y => lsum (all_perms (n - 1)) (fun q => chi (n - 1) x q * chi (n - 1) y q * chi (n - 1) mu q)) * / IZR (zfact (n - 1)))%R) by (intros x _; apply lsum_scal_r).
      rewrite lsum_scal_r. unfold Rdiv. f_equal. rewrite (lsum_ext _ _ (fun x => lsum (all_perms (n - 1)) (fun q => lsum (belows b) (fun y => chi (n - 1) x q * chi (n - 1) y q * chi (n - 1) mu q)))%R) by (intros x _; apply lsum_swap).
      rewrite lsum_swap. apply lsum_ext. intros q Hq. apply HL in Hq. rewrite (chi_restrict n a q), (chi_restrict n b q) by auto. rewrite <- !lsum_scal_r. apply lsum_ext. intros x _. rewrite <- lsum_scal, <- lsum_scal_r. auto.
    + intros x Hx. rewrite IZR_zsum. apply lsum_ext. intros y Hy. apply Ba in Hx as (Px & _). apply Bb in Hy as (Py & _). rewrite (proj1 (kz_ok (n - 1) x y mu ltac:(lia) Px Py Pm)). reflexivity.
  - rewrite IZR_zsum, lsum_filter.
    rewrite (lsum_ext (all_perms (n - 1)) _ (fun q => lsum (pl n) (fun c => kron n a b c * (chi n c (q ++ [n]) * chi (n - 1) mu q)))%R).
    + rewrite lsum_swap. unfold Rdiv. rewrite <- lsum_scal_r. apply lsum_ext. intros c Hc. apply in_pl in Hc; [|lia]. rewrite lsum_scal, chi_restrict_mult by auto. rewrite (proj1 (kz_ok n a b c ltac:(lia) Pa Pb Hc)). destruct (isin mu (belows c)); field; lra.
    + intros q Hq. apply HL in Hq. rewrite (kron_decompose n ltac:(lia) a b) by auto. rewrite <- lsum_scal_r. apply lsum_ext. intros c _. ring.
Qed.

(* ---- types ---- *)
Lemma zsum_pos {A} (l : list A) f : (forall x, In x l -> 0 <= f x) -> (0 < zsum_over l f <-> exists x, In x l /\ 0 < f x).
Proof.
  induction l as [|x l IH]; intros H; [split; [rewrite zsum_over_nil; lia|intros (x & [] & _)]|]. rewrite zsum_over_cons. pose proof (H x (or_introl eq_refl)).
  specialize (IH (fun y Hy => H y (or_intror Hy))). assert (0 <= zsum_over l f) as N. { clear IH. induction l as [|y l IH]; [rewrite zsum_over_nil; lia|]. rewrite zsum_over_cons. pose proof (H y (or_intror (or_introl eq_refl))). specialize (IH ltac:(intros z [->|Hz]; apply H; cbn; auto)). lia. }
  split.
  - intros L. destruct (Z.ltb_spec 0 (f x)); [exists x; cbn; auto|]. destruct (proj1 IH ltac:(lia)) as (y & Hy & K). exists y. cbn; auto.
  - intros (y & [<-|Hy] & K); [lia|]. pose proof (proj2 IH (ex_intro _ y (conj Hy K))). lia.
Qed.

(* what restriction of a type means *)
Definition rdown (n : Z) (t R : list (list Z * Z)) : Prop :=
  type_of (n - 1) R /\ (forall mu, In mu (map fst R) <-> is_part (n - 1) mu /\ exists l, In l (map fst t) /\ In mu (belows l)) /\
  forall mu, is_part (n - 1) mu -> mult R mu = zsum_over (filter (fun l => isin mu (belows l)) (pl n)) (mult t).

Lemma down_rdown n t : type_of n t -> 1 <= n -> exists R, ty_down t = Ret R /\ rdown n t R.
Proof.
  intros T Hn. destruct (down_type n t T Hn) as (R & E & TR & K & M). exists R. split; auto. split; auto. assert (forall l, In l (map fst t) -> is_part n l) as F by (destruct T as (_ & F); rewrite Forall_forall in F; auto). split.
  - intros mu. rewrite K. split; intros (Pm & l & Hl & C); split; auto; exists l; split; auto; apply (belows_spec n l (F l Hl) Hn); auto.
  - intros mu Pm. apply M; auto; [apply NoDup_filter, NoDup_plist|]. intros l. rewrite filter_In, in_pl, isin_true by auto. split; intros (Pl & C); split; auto; [apply (belows_spec n l Pl Hn) in C; apply C|apply (belows_spec n l Pl Hn); auto].
Qed.

Lemma ttr_down n t R q : 2 <= n -> type_of n t -> rdown n t R -> is_perm (n - 1) q -> ttr (n - 1) R q = ttr n t (q ++ [n]).
Proof.
  intros Hn T (TR & K & M) Hq. rewrite (ttr_all (n - 1) R), (ttr_all n t) by (auto; lia).
  rewrite (lsum_ext (pl (n - 1)) _ (fun mu => lsum (pl n) (fun l => if isin mu (belows l) then IZR (mult t l) * chi (n - 1) mu q else 0)%R)).
  - rewrite lsum_swap. apply lsum_ext. intros l Hl. apply in_pl in Hl; [|lia]. rewrite (chi_restrict n l q) by auto. rewrite <- lsum_scal. rewrite <- (lsum_filter (fun mu => isin mu (belows l))). apply lsum_Permutation. destruct (belows_spec n l Hl ltac:(lia)) as (N & B). apply NoDup_Permutation; auto; [apply NoDup_filter, NoDup_plist|]. intros x. rewrite filter_In, isin_true, in_pl by lia. split; [tauto|]. intros Hx. split; auto. apply B in Hx. tauto.
  - intros mu Hm. apply in_pl in Hm; [|lia]. rewrite M by auto. rewrite IZR_zsum, lsum_filter, <- lsum_scal_r. apply lsum_ext. intros l _. destruct (isin mu (belows l)); ring.
Qed.

(* multiplicities are determined by the traces *)
Lemma mult_of_ttr n t c : 1 <= n -> type_of n t -> is_part n c -> (IZR (mult t c) * IZR (zfact n) = lsum (all_perms n) (fun p => ttr n t p * chi n c p))%R.
Proof.
  intros Hn T Pc. rewrite (lsum_ext _ _ (fun p => lsum (pl n) (fun x => IZR (mult t x) * (chi n x p * chi n c p)))%R).
  - rewrite lsum_swap. rewrite (lsum_single _ c); [|apply NoDup_plist|apply in_pl; auto|].
    + rewrite lsum_scal, chi_orth by auto. destruct (pdec c c); [auto|contradiction].
    + intros y Hy Ne. apply in_pl in Hy; auto. rewrite lsum_scal, chi_orth by auto. destruct (pdec y c); [contradiction|ring].
  - intros p _. rewrite ttr_all by auto. rewrite <- lsum_scal_r. apply lsum_ext. intros. ring.
Qed.

Lemma down_tprod n s t R s' t' R' : 2 <= n -> type_of n s -> type_of n t -> tprod n s t R -> rdown n s s' -> rdown n t t' -> tprod (n - 1) s' t' R' -> rdown n R R'.
Proof.
  intros Hn Ts Tt PR Ds Dt PR'. destruct (down_rdown n R) as (R'' & _ & DR); [apply PR|lia|].
  assert (forall s, type_of n s -> forall p, In p s -> is_part n (fst p)) as FT by (intros z (_ & F) p Hp; rewrite Forall_forall in F; apply F, in_map; auto).
  assert (R'' = R') as ->; [|auto]. apply (type_determined (n - 1)); [apply DR|apply PR'| |].
  - intros mu. rewrite (proj1 (proj2 DR)), (proj2 (proj2 PR')).
    assert (is_part (n - 1) mu -> forall p q, In p s -> In q t -> ((exists c, is_part n c /\ 0 < kz n (fst p) (fst q) c /\ In mu (belows c)) <-> exists x y, In x (belows (fst p)) /\ In y (belows (fst q)) /\ 0 < kz (n - 1) x y mu)) as X.
    { intros Pm p q Hp Hq. pose proof (FT s Ts p Hp) as Pp. pose proof (FT t Tt q Hq) as Pq. pose proof (kz_restrict n (fst p) (fst q) mu Hn Pp Pq Pm) as K.
      destruct (belows_spec n (fst p) Pp ltac:(lia)) as (_ & Bp). destruct (belows_spec n (fst q) Pq ltac:(lia)) as (_ & Bq).
      assert (0 < zsum_over (filter (fun c => isin mu (belows c)) (pl n)) (fun c => kz n (fst p) (fst q) c) <-> exists c, is_part n c /\ 0 < kz n (fst p) (fst q) c /\ In mu (belows c)) as <-.
      { rewrite zsum_pos. - split; intros (c & H); exists c; rewrite filter_In, in_pl, isin_true in * by lia; tauto. - intros c Hc. rewrite filter_In, in_pl in Hc by lia. apply kz_ok; auto; [lia|tauto]. }
      rewrite <- K, zsum_pos.
      - split.
        + intros (x & Hx & H). apply zsum_pos in H as (y & Hy & H); [exists x, y; auto|]. intros y Hy. apply Bp in Hx as (Px & _). apply Bq in Hy as (Py & _). apply kz_ok; auto; lia.
        + intros (x & y & Hx & Hy & H). exists x. split; auto. apply zsum_pos; [|exists y; auto]. intros z Hz. apply Bp in Hx as (Px & _). apply Bq in Hz as (Pz & _). apply kz_ok; auto; lia.
      - intros x Hx. assert (forall y, In y (belows (fst q)) -> 0 <= kz (n - 1) x y mu) as Y. { intros y Hy. apply Bp in Hx as (Px & _). apply Bq in Hy as (Py & _). apply kz_ok; auto; lia. } clear K. revert Y. generalize (belows (fst q)) as ys. induction ys as [|y ys IH]; intros Y; [rewrite zsum_over_nil; lia|]. rewrite zsum_over_cons. pose proof (Y y (or_introl eq_refl)). specialize (IH (fun z Hz => Y z (or_intror Hz))). lia. }
    split; intros (Pm & H); split; auto.
    + destruct H as (c & Hc & B). apply (proj2 (proj2 PR)) in Hc as (Pc & p & q & Hp & Hq & H). destruct (proj1 (X Pm p q Hp Hq)) as (x & y & Hx & Hy & Hk); [exists c; auto|].
      assert (In x (map fst s')) as Ix. { apply (proj1 (proj2 Ds)). split; [apply (belows_spec n (fst p)) in Hx; [tauto|eauto|lia]|]. exists (fst p). split; auto. apply in_map; auto. }
      assert (In y (map fst t')) as Iy. { apply (proj1 (proj2 Dt)). split; [apply (belows_spec n (fst q)) in Hy; [tauto|eauto|lia]|]. exists (fst q). split; auto. apply in_map; auto. }
      apply in_map_iff in Ix as (p' & <- & Hp'). apply in_map_iff in Iy as (q' & <- & Hq'). exists p', q'. auto.
    + destruct H as (p' & q' & Hp' & Hq' & Hk). pose proof (proj1 (proj1 (proj2 Ds) (fst p')) (in_map fst _ _ Hp')) as (_ & a & Ha & Ba). pose proof (proj1 (proj1 (proj2 Dt) (fst q')) (in_map fst _ _ Hq')) as (_ & b & Hb & Bb).
      apply in_map_iff in Ha as (p & <- & Hp). apply in_map_iff in Hb as (q & <- & Hq). destruct (proj2 (X Pm p q Hp Hq)) as (c & Pc & H & B); [eauto|]. exists c. split; auto. apply (proj2 (proj2 PR)). split; auto. exists p, q. auto.
  - intros mu. assert (forall t, type_of (n - 1) t -> ~ is_part (n - 1) mu -> mult t mu = 0) as NZ. { intros z (_ & F) H. apply mult_notin. intros I. rewrite Forall_forall in F. auto. }
    assert (is_part (n - 1) mu \/ ~ is_part (n - 1) mu) as [Pm|Nm] by (rewrite <- (in_pl (n - 1) mu) by lia; destruct (in_dec pdec mu (pl (n - 1))); auto).
    2:{ rewrite !NZ; auto; [apply PR'|apply DR]. }
    apply eq_IZR. apply (Rmult_eq_reg_r (IZR (zfact (n - 1)))); [|pose proof (fact_pos (n - 1)); lra]. rewrite !mult_of_ttr by (auto; try lia; try apply PR'; apply DR). apply lsum_ext. intros q Hq. apply (all_perms_lists (n - 1)) in Hq; [|lia]. f_equal.
    assert (is_perm n (q ++ [n])) as HS. { pose proof (is_perm_snoc (n - 1) q) as W. replace (n - 1 + 1) with n in W by lia. apply W; auto; lia. }
    rewrite (ttr_down n R R'') by (auto; apply PR). rewrite (tprod_trace n s t R) by (auto; lia). rewrite (tprod_trace (n - 1) s' t' R') by (auto; try lia; first [apply Ds | apply Dt]). rewrite (ttr_down n s s'), (ttr_down n t t') by auto. auto.
Qed.

Lemma kz_perm n a b c a' b' c' : Permutation [a; b; c] [a'; b'; c'] -> kz n a b c = kz n a' b' c'.
Proof. intros H. unfold kz. rewrite (kron_perm n a b c a' b' c' H). auto. Qed.

Lemma perm_rot {A} (a b c : A) : Permutation [a; b; c] [b; c; a].
Proof. apply (Permutation_app_comm [a] [b; c]). Qed.

Lemma zsum_nonneg {A} (l : list A) f : (forall x, In x l -> 0 <= f x) -> 0 <= zsum_over l f.
Proof. induction l as [|x l IH]; intros H; [rewrite zsum_over_nil; lia|]. rewrite zsum_over_cons. pose proof (H x (or_introl eq_refl)). specialize (IH (fun y Hy => H y (or_intror Hy))). lia. Qed.

(* the same identity read the other way: the irreps above p *)
Lemma kz_induce n p q x : 1 <= n -> is_part n p -> is_part (n + 1) q -> is_part (n + 1) x ->
  zsum_over (aboves p) (fun c => kz (n + 1) c q x) = zsum_over (belows x) (fun mu => zsum_over (belows q) (fun y => kz n p y mu)).
Proof.
  intros Hn Pp Pq Px. pose proof (kz_restrict (n + 1) q x p ltac:(lia) Pq Px) as K. replace (n + 1 - 1) with n in K by lia. specialize (K Pp).
  transitivity (zsum_over (filter (fun c => isin p (belows c)) (pl (n + 1))) (fun c => kz (n + 1) q x c)).
  - rewrite (zsum_over_same (aboves p) (filter (fun c => isin p (belows c)) (pl (n + 1)))).
    + apply zsum_over_ext. intros c _. apply kz_perm. apply perm_rot.
    + eapply NoDup_aboves; eauto.
    + apply NoDup_filter, NoDup_plist.
    + intros c. rewrite filter_In, isin_true, in_pl by lia. apply (above_below n); auto; lia.
  - replace (n + 1 - 1) with n in * by lia. rewrite <- K. rewrite zsum_over_swap. apply zsum_over_ext. intros mu _. apply zsum_over_ext. intros y _. apply kz_perm. symmetry. apply perm_rot.
Qed.

Lemma ind_tprod n s t s' t' P Q : 1 <= n -> type_of n s -> type_of (n + 1) t -> induced_type n s s' -> ty_down t = Ret t' -> tprod n s t' P -> tprod (n + 1) s' t Q -> induced_type n P Q.
Proof.
  intros Hn Ts Tt (Ts' & Ks & Ms) Et (TP & MP & KP) (TQ & MQ & KQ). split; auto.
  destruct (down_type (n + 1) t Tt ltac:(lia)) as (t0 & Et0 & Tt' & Kt & _). rewrite Et in Et0. apply Ret_inj in Et0. subst t0. pose proof (fun mu => down_mult (n + 1) t t' mu Tt ltac:(lia) Et) as Mt. replace (n + 1 - 1) with n in * by lia.
  assert (forall p, In p s -> is_part n (fst p)) as Fs by (intros p Hp; apply (keys_below n s p Ts Hp)). assert (forall p, In p t -> is_part (n + 1) (fst p)) as Ft by (intros p Hp; apply (keys_below (n + 1) t p Tt Hp)).
  assert (forall l mu, is_part (n + 1) l -> (In mu (belows l) <-> is_part n mu /\ contained mu l)) as BS. { intros l mu Pl. pose proof (proj2 (belows_spec (n + 1) l Pl ltac:(lia)) mu) as W. replace (n + 1 - 1) with n in W by lia. exact W. }
  assert (forall l x, is_part n l -> (In x (aboves l) <-> is_part (n + 1) x /\ contained l x)) as AS by (intros; apply above_spec; auto; lia).
  assert (forall x, mult s' x = zsum_over s (fun p => if isin x (aboves (fst p)) then snd p else 0)) as Ms'.
  { intros x. destruct (in_dec pdec x (map fst s')) as [H|H].
    - apply Ks in H as (Px & _). rewrite (Ms x (belows x)); auto.
      + symmetry. apply (type_sum n s (belows x) (fun l => isin x (aboves l))); auto; [apply (belows_spec (n + 1)); auto; lia|]. intros l. rewrite BS by auto. rewrite isin_true. split; intros (A & B); split; auto; apply AS; auto.
      + apply (belows_spec (n + 1)); auto; lia.
    - rewrite mult_notin by auto. symmetry. apply zsum_over_0. intros p Hp. destruct (isin x (aboves (fst p))) eqn:E; auto. apply isin_true in E. apply AS in E; auto. destruct H. apply Ks. split; [tauto|]. exists (fst p). split; [apply in_map; auto|tauto]. }
  split.
  - intros x. rewrite KQ. split; intros (Px & H); split; auto.
    + destruct H as (p' & q & Hp' & Hq & Hk). pose proof (proj1 (Ks (fst p')) (in_map fst _ _ Hp')) as (Pc & l & Hl & C). apply in_map_iff in Hl as (p & <- & Hp).
      pose proof (kz_induce n (fst p) (fst q) x Hn (Fs p Hp) (Ft q Hq) Px) as K.
      assert (0 < zsum_over (aboves (fst p)) (fun c => kz (n + 1) c (fst q) x)) as S. { apply zsum_pos; [|exists (fst p'); split; [apply AS; auto|auto]]. intros c Hc. apply AS in Hc as (Hc & _); auto. apply kz_ok; auto; lia. }
      rewrite K in S. apply zsum_pos in S as (mu & Hmu & S).
      * apply zsum_pos in S as (y & Hy & S). -- exists mu. split; [|apply BS in Hmu; tauto]. apply KP. split; [apply BS in Hmu; tauto|]. assert (In y (map fst t')) as Iy. { apply Kt. split; [apply BS in Hy; auto; tauto|]. exists (fst q). split; [apply in_map; auto|apply BS in Hy; auto; tauto]. } apply in_map_iff in Iy as (q' & <- & Hq'). exists p, q'. auto.
        -- intros y Hy. apply BS in Hy as (Hy & _); auto. apply BS in Hmu as (Hmu & _); auto. apply kz_ok; auto.
      * intros mu' Hmu. apply zsum_nonneg. intros y Hy. apply BS in Hy as (Hy & _); auto. apply BS in Hmu as (Hmu & _); auto. apply kz_ok; auto.
    + destruct H as (mu & Hmu & C). apply KP in Hmu as (Pmu & p & q' & Hp & Hq' & Hk). pose proof (proj1 (Kt (fst q')) (in_map fst _ _ Hq')) as (Py & l & Hl & Cy). apply in_map_iff in Hl as (q & <- & Hq).
      pose proof (kz_induce n (fst p) (fst q) x Hn (Fs p Hp) (Ft q Hq) Px) as K.
      assert (forall mu, In mu (belows x) -> forall y, In y (belows (fst q)) -> 0 <= kz n (fst p) y mu) as NN. { intros m Hm y Hy. apply BS in Hy as (Hy & _); auto. apply BS in Hm as (Hm & _); auto. apply kz_ok; auto. }
      assert (0 < zsum_over (belows x) (fun mu => zsum_over (belows (fst q)) (fun y => kz n (fst p) y mu))) as S.
      { assert (In mu (belows x)) as Im by (apply BS; auto). apply zsum_pos; [intros m Hm; apply zsum_nonneg; intros; apply NN; auto|]. exists mu. split; auto. apply zsum_pos; [intros; apply NN; auto|]. exists (fst q'). split; auto. apply BS; auto. }
      rewrite <- K in S. apply zsum_pos in S as (c & Hc & S).
      * apply AS in Hc as (Pc & Cc); auto. assert (In c (map fst s')) as Ic by (apply Ks; split; auto; exists (fst p); split; auto; apply in_map; auto). apply in_map_iff in Ic as (p' & <- & Hp'). exists p', q. auto.
      * intros c' Hc. apply AS in Hc as (Hc & _); auto. apply kz_ok; auto; lia.
  - intros x L Px N HL. rewrite MQ by auto.
    rewrite (zsum_over_ext s' _ (fun p => snd p * zsum_over t (fun q => snd q * kz (n + 1) (fst p) (fst q) x))) by (intros p _; rewrite <- zsum_over_scal; apply zsum_over_ext; intros; lia).
    rewrite (moved_dim n (n + 1) s s' aboves (fun l => zsum_over (aboves l) (fun c => zsum_over t (fun q => snd q * kz (n + 1) c (fst q) x))) (fun c => zsum_over t (fun q => snd q * kz (n + 1) c (fst q) x))); auto.
    2:{ intros l Pl. split; [eapply NoDup_aboves; eauto|]. split; auto. intros y Hy. apply AS in Hy; auto. tauto. }
    2:{ intros c. rewrite Ks. split; [intros (Pc & l & Hl & C)|intros (l & Hl & H)]; [exists l; split; auto|]; assert (is_part n l) as Pl by (apply in_map_iff in Hl as (p & <- & Hp); auto); [apply AS; auto|]. apply AS in H as (H1 & H2); auto. split; auto. exists l; auto. }
    rewrite (zsum_over_ext L _ (fun mu => zsum_over s (fun p => snd p * zsum_over t (fun q => snd q * zsum_over (belows (fst q)) (fun y => kz n (fst p) y mu))))).
    + rewrite zsum_over_swap. apply zsum_over_ext. intros p Hp. rewrite zsum_over_scal. f_equal. rewrite !(zsum_over_swap _ t). apply zsum_over_ext. intros q Hq. rewrite !zsum_over_scal. f_equal. rewrite (kz_induce n) by auto. apply zsum_over_same; auto; [apply (belows_spec (n + 1)); auto; lia|]. intros mu. rewrite HL. apply BS; auto.
    + intros mu Hmu. apply HL in Hmu as (Pmu & Cmu). rewrite MP by auto. apply zsum_over_ext. intros p Hp.
      rewrite (zsum_over_ext t' _ (fun q => snd p * (snd q * kz n (fst p) (fst q) mu))) by (intros; lia). rewrite zsum_over_scal. f_equal.
      apply (moved_dim (n + 1) n t t' belows (fun l => zsum_over (belows l) (fun y => kz n (fst p) y mu)) (fun y => kz n (fst p) y mu)); auto.
      * intros l Pl. split; [apply (belows_spec (n + 1)); auto; lia|]. split; auto. intros y Hy. apply BS in Hy; auto. tauto.
      * intros y. rewrite Kt. split; [intros (Pc & l & Hl & C)|intros (l & Hl & H)]; [exists l; split; auto|]; assert (is_part (n + 1) l) as Pl by (apply in_map_iff in Hl as (z & <- & Hz); auto); [apply BS; auto|]. apply BS in H as (H1 & H2); auto. split; auto. exists l; auto.
Qed.

(* ---- the statements ---- *)
Lemma rdown_unique n t R R' : rdown n t R -> rdown n t R' -> R = R'.
Proof.
  intros (T & K & M) (T' & K' & M'). apply (type_determined (n - 1)); auto; [intros l; rewrite K, K'; tauto|]. intros mu. destruct (in_dec pdec mu (map fst R)) as [H|H].
  - apply K in H as (Pm & _). rewrite M, M' by auto. auto.
  - assert (~ In mu (map fst R')) as H' by (rewrite K' in *; rewrite K in H; auto). rewrite !mult_notin; auto.
Qed.

Lemma cg_answer_types n s t : 1 <= n -> type_of n s -> type_of n t -> exists R, tprod n s t R /\ forall qs, Forall legal_cgq qs -> exists aa st, cgrun (qs ++ [GTypes s t]) cg0 = Ret (aa ++ [AType R], st).
Proof.
  intros Hn Ts Tt. assert (legal_cgq (GTypes s t)) as Lq by (exists n; auto). destruct (cgrun_last [] (GTypes s t) (Forall_nil _) Lq) as (aa & x & st & E & A). destruct x as [v|R]; cbn [cg_ans] in A; [contradiction|]. specialize (A n Hn Ts Tt). exists R. split; auto.
  intros qs L. destruct (cgrun_last qs (GTypes s t) L Lq) as (aa' & x & s' & E' & A'). destruct x as [v|R']; cbn [cg_ans] in A'; [contradiction|]. specialize (A' n Hn Ts Tt). rewrite (tprod_unique n s t R R' A A'). exists aa', s'. auto.
Qed.

Lemma cg_answer_prod n a b : 1 <= n -> is_part n a -> is_part n b -> exists R, tprod n [(a, 1)] [(b, 1)] R /\ forall qs, Forall legal_cgq qs -> exists aa st, cgrun (qs ++ [GProd a b]) cg0 = Ret (aa ++ [AType R], st).
Proof.
  intros Hn Pa Pb. assert (legal_cgq (GProd a b)) as Lq by (exists n; auto). destruct (cgrun_last [] (GProd a b) (Forall_nil _) Lq) as (aa & x & s & E & A). destruct x as [v|t]; cbn [cg_ans] in A; [contradiction|]. specialize (A n Hn Pa Pb). exists t. split; [apply prod_tprod; auto|].
  intros qs L. destruct (cgrun_last qs (GProd a b) L Lq) as (aa' & x & s' & E' & A'). destruct x as [v|t']; cbn [cg_ans] in A'; [contradiction|]. specialize (A' n Hn Pa Pb). rewrite (prod_type_unique n a b t t' A A'). exists aa', s'. auto.
Qed.

Lemma type_one n l : is_part n l -> type_of n [(l, 1)].
Proof. intros P. split; constructor; auto; constructor. Qed.

Lemma restrict_types n s t s' t' : 2 <= n -> type_of n s -> type_of n t -> ty_down s = Ret s' -> ty_down t = Ret t' -> exists R R', ty_down R = Ret R' /\
  forall qs, Forall legal_cgq qs -> (exists aa st, cgrun (qs ++ [GTypes s t]) cg0 = Ret (aa ++ [AType R], st)) /\ (exists aa st, cgrun (qs ++ [GTypes s' t']) cg0 = Ret (aa ++ [AType R'], st)).
Proof.
  intros Hn Ts Tt Es Et. destruct (down_rdown n s Ts ltac:(lia)) as (x & Ex & Ds). rewrite Es in Ex. apply Ret_inj in Ex. subst x. destruct (down_rdown n t Tt ltac:(lia)) as (x & Ex & Dt). rewrite Et in Ex. apply Ret_inj in Ex. subst x.
  destruct (cg_answer_types n s t ltac:(lia) Ts Tt) as (R & PR & AR). destruct (cg_answer_types (n - 1) s' t' ltac:(lia) (proj1 Ds) (proj1 Dt)) as (R' & PR' & AR'). exists R, R'. split; [|intros qs L; split; auto].
  destruct (down_rdown n R (proj1 PR) ltac:(lia)) as (R'' & E & DR). rewrite E. f_equal. apply (rdown_unique n R); auto. apply (down_tprod n s t R s' t' R'); auto.
Qed.

Lemma restrict_irreps n a b s' t' : 2 <= n -> is_part n a -> is_part n b -> ty_down1 a = Ret s' -> ty_down1 b = Ret t' -> exists R R', ty_down R = Ret R' /\
  forall qs, Forall legal_cgq qs -> (exists aa st, cgrun (qs ++ [GProd a b]) cg0 = Ret (aa ++ [AType R], st)) /\ (exists aa st, cgrun (qs ++ [GTypes s' t']) cg0 = Ret (aa ++ [AType R'], st)).
Proof.
  intros Hn Pa Pb Es Et. assert (forall l u, is_part n l -> ty_down1 l = Ret u -> ty_down [(l, 1)] = Ret u) as D1. { intros l u Pl E. destruct (down_single n l Pl ltac:(lia)) as (R & E1 & E2). congruence. }
  destruct (down_rdown n [(a, 1)] (type_one n a Pa) ltac:(lia)) as (x & Ex & Ds). rewrite (D1 a s') in Ex by auto. apply Ret_inj in Ex. subst x. destruct (down_rdown n [(b, 1)] (type_one n b Pb) ltac:(lia)) as (x & Ex & Dt). rewrite (D1 b t') in Ex by auto. apply Ret_inj in Ex. subst x.
  destruct (cg_answer_prod n a b ltac:(lia) Pa Pb) as (R & PR & AR). destruct (cg_answer_types (n - 1) s' t' ltac:(lia) (proj1 Ds) (proj1 Dt)) as (R' & PR' & AR'). exists R, R'. split; [|intros qs L; split; auto].
  destruct (down_rdown n R (proj1 PR) ltac:(lia)) as (R'' & E & DR). rewrite E. f_equal. apply (rdown_unique n R); auto. apply (down_tprod n [(a, 1)] [(b, 1)] R s' t' R'); auto using type_one.
Qed.

Lemma projection_formula n s t s' t' : 1 <= n -> type_of n s -> type_of (n + 1) t -> induced_type n s s' -> ty_down t = Ret t' -> exists P Q, induced_type n P Q /\
  forall qs, Forall legal_cgq qs -> (exists aa st, cgrun (qs ++ [GTypes s t']) cg0 = Ret (aa ++ [AType P], st)) /\ (exists aa st, cgrun (qs ++ [GTypes s' t]) cg0 = Ret (aa ++ [AType Q], st)).
Proof.
  intros Hn Ts Tt Is Et. assert (type_of n t') as Tt'. { destruct (down_type (n + 1) t Tt ltac:(lia)) as (x & Ex & T & _). rewrite Et in Ex. apply Ret_inj in Ex. subst x. replace (n + 1 - 1) with n in T by lia. auto. }
  destruct (cg_answer_types n s t' Hn Ts Tt') as (P & PP & AP). destruct (cg_answer_types (n + 1) s' t ltac:(lia) (proj1 Is) Tt) as (Q & PQ & AQ). exists P, Q. split; [apply (ind_tprod n s t s' t'); auto|]. intros qs L; split; auto.
Qed.
