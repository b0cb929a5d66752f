(* Irreps of the cyclic and dihedral groups (C54, C55). *)
From Coq Require Import ZArith List Bool Lia ZifyBool Reals Lra Ring.
From Verif Require Import Model_Base Model_Group Spec_Group Proof_Base Proof_Cx Proof_Group.
Import ListNotations.
Open Scope Z_scope.

(* one-dimensional representations *)
Lemma unitary_1 {E} (G : gops E) index rho (v : Z -> R * R) : i_dim rho = 1 -> (forall i, 0 <= i < g_size G -> t_v (i_at rho i) = [v i]) ->
  (forall x, in_group G x -> 0 <= index x < g_size G) -> in_group G (g_identity G) ->
  (forall x y z, in_group G x -> in_group G y -> g_mul G x y = Ret z -> in_group G z) ->
  (forall x y z, in_group G x -> in_group G y -> g_mul G x y = Ret z -> v (index z) = cmul (v (index x)) (v (index y))) ->
  v (index (g_identity G)) = cx1 -> (forall x, in_group G x -> cmul (v (index x)) (cconj (v (index x))) = cx1) -> unitary_rep G index rho.
Proof.
  intros D V X I C M M1 U. assert (forall x, in_group G x -> entry 1 (i_at rho (index x)) 0 0 = v (index x)) as N by (intros; unfold entry; rewrite V by auto; reflexivity).
  split; [|split; [|split]]; rewrite ?D.
  - split; [lia|]. intros i Hi. rewrite V by auto. rewrite D. reflexivity.
  - intros x y z p q Hx Hy E1 Hp Hq. assert (p = 0) by lia. assert (q = 0) by lia. subst. rewrite (N z) by eauto. change (upto 1) with [0]. rewrite csum_cons, csum_nil, !N by auto. rewrite (M x y z) by auto. ring.
  - intros p q Hp Hq. assert (p = 0) by lia. assert (q = 0) by lia. subst. rewrite N by auto. exact M1.
  - intros x p q Hx Hp Hq. assert (p = 0) by lia. assert (q = 0) by lia. subst. change (upto 1) with [0]. rewrite csum_cons, csum_nil, !N by auto. rewrite U by auto. cbn [Z.eqb]. ring.
Qed.

(* ---- cyclic ---- *)
Lemma cyc_at n k i : i_at (cyc_irrep n k) i = mkT [1] [wn n (k * i)].
Proof. cbn [cyc_irrep i_at]. unfold wn, cis. rewrite mult_IZR. replace (2 * PI / IZR n * (IZR k * IZR i))%R with (2 * PI / IZR n * IZR k * IZR i)%R by ring. reflexivity. Qed.

Lemma cyclic_closed n x y z : 1 <= n -> in_group (cyclic n) x -> in_group (cyclic n) y -> g_mul (cyclic n) x y = Ret z -> in_group (cyclic n) z.
Proof. intros Hn I J E. destruct (gr_closed _ (cyclic_group n Hn) _ _ I J) as (z' & E' & K). congruence. Qed.

Lemma cyc_unitary n k : 1 <= n -> unitary_rep (cyclic n) cyc_index (cyc_irrep n k).
Proof.
  intros Hn. apply (unitary_1 _ _ _ (fun i => wn n (k * i))).
  - reflexivity.
  - intros i _. rewrite cyc_at. reflexivity.
  - intros x I. apply in_cyclic in I. cbn. apply I.
  - apply gr_identity, cyclic_group; auto.
  - intros x y z I J E. apply (cyclic_closed n x y z); auto.
  - intros [m i] [m' j] z I J E. apply in_cyclic in I, J. cbn in I, J. destruct I as (-> & I), J as (-> & J). cbn [cyclic g_mul] in E. rewrite c_mul_ok in E by lia. apply Ret_inj in E. subst z. unfold cyc_index; cbn [c_i].
    rewrite <- wn_add. destruct (mod_ex (i + j) n ltac:(lia)) as (a & ->). rewrite <- (wn_period n (k * i + k * j) (k * a)) by lia. f_equal. ring.
  - cbn. rewrite Z.mul_0_r. apply wn_0.
  - intros x I. apply cis_unit.
Qed.

Lemma cyc_orthogonal n k l : 1 <= n -> 0 <= k < n -> 0 <= l < n ->
  csum (upto n) (fun j => cmul (entry 1 (i_at (cyc_irrep n k) j) 0 0) (cconj (entry 1 (i_at (cyc_irrep n l) j) 0 0))) = if k =? l then creal (IZR n) else cx0.
Proof.
  intros Hn Hk Hl. rewrite (csum_ext _ _ (fun j => wn n ((k - l) * j))).
  - rewrite wn_sum by lia. destruct (Z.eqb_spec k l) as [->|E]; [rewrite Z.sub_diag, Z.mod_0_l by lia; reflexivity|]. destruct (Z.eqb_spec ((k - l) mod n) 0) as [K|K]; auto. exfalso.
    destruct (mod_ex (k - l) n ltac:(lia)) as (a & A). rewrite K in A. assert (a = 0) by nia. subst. lia.
  - intros j _. rewrite !cyc_at. unfold entry; cbn [t_v Z.mul Z.add Z.to_nat nth]. rewrite wn_conj, <- wn_add. f_equal. ring.
Qed.

Lemma cyc_complete n : 1 <= n -> complete_irreps (cyclic n) cyc_index (cyc_nirreps n) (fun k => Ret (cyc_irrep n k)).
Proof.
  intros Hn. split; [intros i Hi; eexists; split; [reflexivity|apply cyc_unitary; auto]|]. unfold cyc_nirreps. intros rhos F j Hj. cbn [cyclic g_size g_identity] in *. unfold cyc_index; cbn [c_i].
  assert (rhos = map (fun k => cyc_irrep n k) (upto n)) as ->. { clear Hj. induction F as [|k rho K rs E F IH]; [reflexivity|]. cbn [map]. apply Ret_inj in E. subst. f_equal; auto. }
  rewrite csum_map. rewrite (csum_ext _ _ (fun k => wn n (j * k))).
  - rewrite wn_sum by lia. rewrite Z.mod_small by lia. reflexivity.
  - intros k _. cbn [i_dim cyc_irrep]. unfold character. cbn [i_dim cyc_irrep]. change (upto 1) with [0]. rewrite csum_cons, csum_nil. change (i_at {| i_dim := 1; i_at := _ |} j) with (i_at (cyc_irrep n k) j). rewrite cyc_at. unfold entry; cbn [t_v Z.mul Z.add Z.to_nat nth]. rewrite creal_1, (Z.mul_comm k). ring.
Qed.

(* ---- dihedral ---- *)
Definition par (i : Z) : R := if Z.even i then 1%R else (-1)%R.
Lemma par_rem i : 0 <= i -> (1 - 2 * IZR (Z.rem i 2))%R = par i.
Proof.
  intros Hi. rewrite Z.rem_mod_nonneg by lia. unfold par. rewrite Zeven_mod. pose proof (Z.mod_pos_bound i 2 ltac:(lia)). destruct (Zeq_bool (i mod 2) 0) eqn:E; [apply Zeq_bool_eq in E|apply Zeq_bool_neq in E].
  - rewrite E. lra.
  - replace (i mod 2) with 1 by lia. lra.
Qed.
Lemma par_add a b : par (a + b) = (par a * par b)%R.
Proof. unfold par. rewrite Z.even_add. destruct (Z.even a), (Z.even b); cbn; lra. Qed.
Lemma par_opp a : par (- a) = par a.
Proof. unfold par. rewrite Z.even_opp. reflexivity. Qed.
Lemma par_even_mul a b : Z.even b = true -> par (a * b) = 1%R.
Proof. intros E. unfold par. rewrite Z.even_mul, E, orb_true_r. reflexivity. Qed.
Lemma par_sq a : (par a * par a = 1)%R.
Proof. unfold par. destruct (Z.even a); lra. Qed.
Lemma par_wn h a : 0 < h -> creal (par a) = wn (2 * h) (h * a).
Proof.
  intros Hh. assert (wn (2 * h) h = creal (-1)) as W.
  { unfold wn. rewrite mult_IZR. replace (2 * PI / (2 * IZR h) * IZR h)%R with PI by (field; apply not_0_IZR; lia). apply cx_eq; cbn; [apply cos_PI|apply sin_PI]. }
  unfold par. destruct (Z.even a) eqn:Ev.
  - apply Z.even_spec in Ev as (b & ->). symmetry. apply wn_one; [lia|]. replace (h * (2 * b)) with (b * (2 * h)) by ring. apply Z.mod_mul. lia.
  - assert (Z.odd a = true) as O by (rewrite <- Z.negb_even, Ev; reflexivity). apply Z.odd_spec in O as (b & ->). replace (h * (2 * b + 1)) with (h + 2 * h * b) by ring. rewrite wn_period by lia. auto.
Qed.

(* the exponent of the two-dimensional irreps *)
Definition dp (n k : Z) : Z := if Z.even n then k - 3 else k - 1.
Lemma rem2_even n : 0 <= n -> (Z.rem n 2 =? 0) = Z.even n.
Proof. intros Hn. rewrite Z.rem_mod_nonneg by lia. rewrite Zeven_mod. pose proof (Z.mod_pos_bound n 2 ltac:(lia)). destruct (Zeq_bool (n mod 2) 0) eqn:E; [apply Zeq_bool_eq in E|apply Zeq_bool_neq in E]; lia. Qed.

Definition dgood (n k : Z) : Prop := 0 <= k < dih_nirreps n /\ ~ (Z.even n = true /\ k = 3).
Definition dtwo (n k : Z) : bool := negb (k =? 0) && negb (k =? 1) && negb (Z.even n && (k =? 2)).
Definition drot (n k i : Z) : R * R := if k =? 0 then cx1 else if k =? 1 then cx1 else if Z.even n && (k =? 2) then creal (par i) else wn n (dp n k * i).
Definition done_ (n k i s : Z) : R * R := if k =? 0 then cx1 else if k =? 1 then creal (IZR s) else creal (par i).

Lemma dih_dim_ok n k : 1 <= n -> dgood n k -> i_dim (dih_irrep n k) = if dtwo n k then 2 else 1.
Proof. intros Hn (K & N). cbn [dih_irrep i_dim]. unfold dih_dim, dtwo. rewrite rem2_even by lia. destruct (Z.even n); [assert (k <> 3) by (intros ->; apply N; auto)|]; clear N; destruct (Z.eqb_spec k 0), (Z.eqb_spec k 1), (Z.eqb_spec k 2); cbn [negb andb]; match goal with |- context [?a <? ?b] => destruct (Z.ltb_spec a b) end; lia. Qed.

Lemma nirr_ok n : 1 <= n -> dih_nirreps n = if Z.even n then n / 2 + 3 else n / 2 + 2.
Proof.
  intros Hn. unfold dih_nirreps. rewrite rem2_even by lia. destruct (Z.even n) eqn:E; rewrite Z.quot_div_nonneg by lia; auto. f_equal. assert (Z.odd n = true) as O by (rewrite <- Z.negb_even, E; reflexivity). apply Z.odd_spec in O as (b & ->).
  replace (2 * b + 1 - 1) with (b * 2) by lia. rewrite Z.div_mul by lia. apply (Z.div_unique _ _ _ 1); lia.
Qed.

Lemma dp_bound n k : 1 <= n -> dgood n k -> dtwo n k = true -> 1 <= dp n k /\ 2 * dp n k < n.
Proof.
  intros Hn (K & N) T. rewrite nirr_ok in K by lia. unfold dtwo, dp in *. pose proof (Z.div_mod n 2 ltac:(lia)). pose proof (Z.mod_pos_bound n 2 ltac:(lia)). destruct (Z.even n) eqn:E.
  - assert (k <> 3) by (intros ->; apply N; auto). rewrite Zeven_mod in E. apply Zeq_bool_eq in E. destruct (Z.eqb_spec k 0), (Z.eqb_spec k 1), (Z.eqb_spec k 2); cbn [negb andb] in T; try discriminate; lia.
  - rewrite Zeven_mod in E. apply Zeq_bool_neq in E. destruct (Z.eqb_spec k 0), (Z.eqb_spec k 1); cbn [negb andb] in T; try discriminate; lia.
Qed.

Lemma dih_index_range n x : 1 <= n -> in_group (dihedral n) x -> 0 <= dih_index n x < 2 * n.
Proof. intros Hn I. apply in_dihedral in I; auto. unfold dih_index. destruct (Z.eqb_spec (d_s x) (-1)); lia. Qed.

(* the matrix of rotation or reflection number i *)
Lemma dih_at_ok n k i s : 1 <= n -> dgood n k -> 0 <= i < n -> s = 1 \/ s = -1 ->
  t_v (i_at (dih_irrep n k) (dih_index n (mkD n i s))) =
  if dtwo n k then (if s =? 1 then [wn n (dp n k * i); cx0; cx0; wn n (- (dp n k * i))] else [cx0; wn n (dp n k * i); wn n (- (dp n k * i)); cx0])
  else [done_ n k i s].
Proof.
  intros Hn (K & N) Hi Hs. set (j := dih_index n (mkD n i s)). assert (j = i + (if s =? 1 then 0 else n)) as Ej. { unfold j, dih_index; cbn [d_i d_s]. destruct Hs; subst; cbn; lia. }
  clearbody j. cbn [dih_irrep i_at]. unfold dih_at, dtwo, done_. rewrite rem2_even by lia. destruct (Z.eqb_spec k 0) as [->|K0]; [reflexivity|]. destruct (Z.eqb_spec k 1) as [->|K1].
  { cbn [negb andb t_v]. do 2 f_equal. clear N; destruct Hs; subst s; cbn [Z.eqb Pos.eqb] in Ej; destruct (Z.leb_spec n j); try lia; lra. }
  cbn [negb andb]. destruct (Z.even n && (k =? 2)) eqn:E2; cbn [negb t_v].
  { do 2 f_equal. rewrite par_rem by (destruct (s =? 1); lia). rewrite Ej, par_add. destruct (s =? 1); [unfold par at 2; cbn; lra|]. assert (par n = 1%R) as -> by (unfold par; apply andb_true_iff in E2 as (-> & _); auto). lra. }
  assert (k - 1 - 2 * (if Z.even n then 1 else 0) = dp n k) as Ep by (unfold dp; destruct (Z.even n); lia). rewrite Ep.
  assert (wn n (dp n k * j) = wn n (dp n k * i)) as W. { rewrite Ej. destruct (s =? 1); [f_equal; ring|]. rewrite Z.mul_add_distr_l, (Z.mul_comm (dp n k) n). apply wn_period. lia. }
  assert ((cos (2 * PI / IZR n * IZR (dp n k) * IZR j), sin (2 * PI / IZR n * IZR (dp n k) * IZR j)) = wn n (dp n k * i)) as W1. { rewrite <- W. unfold wn, cis. rewrite mult_IZR, Rmult_assoc. reflexivity. }
  assert ((cos (2 * PI / IZR n * IZR (dp n k) * IZR j), (- sin (2 * PI / IZR n * IZR (dp n k) * IZR j))%R) = wn n (- (dp n k * i))) as W2. { rewrite <- wn_conj, <- W. unfold wn, cis, cconj; cbn [fst snd]. rewrite mult_IZR, Rmult_assoc. reflexivity. }
  rewrite W1, W2. clear N; destruct Hs; subst s; cbn [Z.eqb Pos.eqb] in *; destruct (Z.ltb_spec j n); try lia; reflexivity.
Qed.

Lemma dihedral_closed n x y z : 1 <= n -> in_group (dihedral n) x -> in_group (dihedral n) y -> g_mul (dihedral n) x y = Ret z -> in_group (dihedral n) z.
Proof. intros Hn I J E. destruct (gr_closed _ (dihedral_group n Hn) _ _ I J) as (z' & E' & K). congruence. Qed.

Lemma range2 (P : Z -> Prop) : P 0 -> P 1 -> forall p, 0 <= p < 2 -> P p.
Proof. intros A B p Hp. assert (p = 0 \/ p = 1) as [-> | ->] by lia; auto. Qed.

Ltac ev := change (Z.to_nat (0 * 2 + 0)) with 0%nat; change (Z.to_nat (0 * 2 + 1)) with 1%nat; change (Z.to_nat (1 * 2 + 0)) with 2%nat; change (Z.to_nat (1 * 2 + 1)) with 3%nat;
  change (1 * 1 =? 1) with true; change (1 * -1 =? 1) with false; change (-1 * 1 =? 1) with false; change (-1 * -1 =? 1) with true; change (1 =? 1) with true; change (-1 =? 1) with false;
  change (0 =? 0) with true; change (0 =? 1) with false; change (1 =? 0) with false; cbn [nth].

Lemma dih_unitary n k : 1 <= n -> dgood n k -> unitary_rep (dihedral n) (dih_index n) (dih_irrep n k).
Proof.
  intros Hn Gk. pose proof (dih_dim_ok n k Hn Gk) as D. pose proof (fun i s => dih_at_ok n k i s Hn Gk) as V. destruct (dtwo n k) eqn:T.
  - assert (forall i j s, 0 <= i < n -> 0 <= j < n -> s = 1 \/ s = -1 ->
      wn n (dp n k * ((i + s * j) mod n)) = cmul (wn n (dp n k * i)) (if s =? 1 then wn n (dp n k * j) else wn n (- (dp n k * j))) /\
      wn n (- (dp n k * ((i + s * j) mod n))) = cmul (wn n (- (dp n k * i))) (if s =? 1 then wn n (- (dp n k * j)) else wn n (dp n k * j))) as Wm.
    { intros i j s Hi Hj Hs. destruct (mod_ex (i + s * j) n ltac:(lia)) as (e & ->). split; (destruct Hs; subst s; cbn [Z.eqb Pos.eqb]; rewrite <- wn_add).
      - rewrite <- (wn_period n (dp n k * i + dp n k * j) (dp n k * e)) by lia. f_equal. ring.
      - rewrite <- (wn_period n (dp n k * i + - (dp n k * j)) (dp n k * e)) by lia. f_equal. ring.
      - rewrite <- (wn_period n (- (dp n k * i) + - (dp n k * j)) (- (dp n k * e))) by lia. f_equal. ring.
      - rewrite <- (wn_period n (- (dp n k * i) + dp n k * j) (- (dp n k * e))) by lia. f_equal. ring. }
    split; [|split; [|split]]; rewrite ?D.
    + split; [lia|]. intros j Hj. cbn [dihedral g_size] in Hj. destruct (gr_element _ (dihedral_group n Hn) j Hj) as (x & Ex). assert (in_group (dihedral n) x) as I by (exists j; auto). rewrite <- (proj1 (dihedral_index n) j x Hj Ex). apply in_dihedral in I; auto. destruct x as [m i s]. cbn in I. destruct I as (-> & Hi & Hs).
      rewrite V, D by auto. destruct (s =? 1); reflexivity.
    + intros [m i s] [m' j t] z p q I J E Hp Hq. pose proof (dihedral_closed n _ _ _ Hn I J E) as Iz. ind I. ind J. cbn [dihedral g_mul] in E. rewrite d_mul_ok in E by (auto; lia). apply Ret_inj in E. subst z. apply in_dihedral in Iz; [|lia]; cbn [d_n d_i d_s] in Iz; destruct Iz as (_ & Iz1 & Iz2).
      unfold entry. rewrite !V by auto. change (upto 2) with [0; 1]. rewrite !csum_cons, csum_nil. destruct (Wm i j s) as (-> & ->); auto.
      assert (p = 0 \/ p = 1) as Dp by lia; assert (q = 0 \/ q = 1) as Dq by lia; destruct Dp; destruct Dq; subst p q; (destruct H0; destruct H2; subst; ev); ring.
    + intros p q Hp Hq. cbn [dihedral g_identity]. unfold entry. rewrite V by lia. cbn [Z.eqb Pos.eqb]. rewrite !Z.mul_0_r. change (- 0) with 0. rewrite wn_0.
      assert (p = 0 \/ p = 1) as Dp by lia; assert (q = 0 \/ q = 1) as Dq by lia; destruct Dp; destruct Dq; subst p q; reflexivity.
    + intros [m i s] p q I Hp Hq. ind I. unfold entry. rewrite !V by auto. change (upto 2) with [0; 1]. rewrite !csum_cons, csum_nil.
      assert (cmul (wn n (dp n k * i)) (cconj (wn n (dp n k * i))) = cx1) as U1 by apply cis_unit. assert (cmul (wn n (- (dp n k * i))) (cconj (wn n (- (dp n k * i)))) = cx1) as U2 by apply cis_unit.
      assert (p = 0 \/ p = 1) as Dp by lia; assert (q = 0 \/ q = 1) as Dq by lia; destruct Dp; destruct Dq; subst p q; (destruct H0; subst; ev); rewrite ?cconj_0, ?U1, ?U2; ring.
  - apply (unitary_1 _ _ _ (fun j => nth 0 (t_v (i_at (dih_irrep n k) j)) cx0)); auto.
    + intros j Hj. cbn [dihedral g_size] in Hj. destruct (gr_element _ (dihedral_group n Hn) j Hj) as (x & Ex). assert (in_group (dihedral n) x) as I by (exists j; auto). rewrite <- (proj1 (dihedral_index n) j x Hj Ex). apply in_dihedral in I; auto. destruct x as [m i s]. cbn in I. destruct I as (-> & Hi & Hs).
      rewrite V by auto. reflexivity.
    + intros x I. apply dih_index_range; auto.
    + apply gr_identity, dihedral_group; auto.
    + intros x y z I J E. apply (dihedral_closed n x y z); auto.
    + intros [m i s] [m' j t] z I J E. pose proof (dihedral_closed n _ _ _ Hn I J E) as Iz. ind I. ind J. cbn [dihedral g_mul] in E. rewrite d_mul_ok in E by (auto; lia). apply Ret_inj in E. subst z. apply in_dihedral in Iz; [|lia]; cbn [d_n d_i d_s] in Iz; destruct Iz as (_ & Iz1 & Iz2). rewrite !V by auto. cbn [nth]. unfold done_. unfold dtwo in T.
      destruct (k =? 0); [ring|]. destruct (k =? 1); [rewrite creal_mul, mult_IZR; reflexivity|]. cbn [negb andb] in T. assert (Z.even n = true) as Ev by (destruct (Z.even n); auto; discriminate). rewrite creal_mul. f_equal.
      destruct (mod_ex (i + s * j) n ltac:(lia)) as (e & ->). rewrite !par_add, (par_even_mul e n) by auto. assert (par (s * j) = par j) as -> by (clear - H0; destruct H0; subst; [f_equal; lia|rewrite <- (par_opp j); f_equal; lia]). ring.
    + cbn [dihedral g_identity]. rewrite V by lia. cbn [nth]. unfold done_. destruct (k =? 0); [reflexivity|]. destruct (k =? 1); reflexivity.
    + intros [m i s] I. ind I. rewrite V by auto. cbn [nth]. unfold done_. destruct (k =? 0); [rewrite cconj_1; ring|]. destruct (k =? 1); rewrite cconj_real, creal_mul, <- creal_1; f_equal; [destruct H0; subst; lra|apply par_sq].
Qed.

(* ---- characters of the dihedral group ---- *)
Lemma wsum_ne n m : 0 < n -> 0 < Z.abs m < n -> csum (upto n) (fun j => wn n (m * j)) = cx0.
Proof.
  intros Hn Hm. rewrite wn_sum by auto. destruct (Z.eqb_spec (m mod n) 0) as [K|K]; auto. exfalso. destruct (mod_ex m n ltac:(lia)) as (a & A). rewrite K in A. assert (a = 0 \/ 1 <= a \/ a <= -1) as [-> | [?|?]] by lia; nia.
Qed.
Lemma wsum_0 n : 0 < n -> csum (upto n) (fun _ => cx1) = creal (IZR n).
Proof. intros Hn. rewrite csum_const, zlen_upto by lia. ring. Qed.

Lemma upto_double n (F : Z -> R * R) : 0 <= n -> csum (upto (2 * n)) F = cadd (csum (upto n) F) (csum (upto n) (fun i => F (i + n))).
Proof.
  intros Hn. rewrite !upto_zrange, (zrange_app 0 n (2 * n)), csum_app by lia. f_equal. assert (zrange n (2 * n) = map (fun i => i + n) (zrange 0 n)) as ->; [|apply csum_map].
  unfold zrange. rewrite map_map. replace (2 * n - n) with (n - 0) by lia. apply map_ext. intros; lia.
Qed.

Lemma dih_character n k i s : 1 <= n -> dgood n k -> 0 <= i < n -> s = 1 \/ s = -1 ->
  character (dih_irrep n k) (dih_index n (mkD n i s)) = if dtwo n k then (if s =? 1 then cadd (wn n (dp n k * i)) (wn n (- (dp n k * i))) else cx0) else done_ n k i s.
Proof.
  intros Hn Gk Hi Hs. unfold character. rewrite (dih_dim_ok n k Hn Gk). unfold entry. rewrite (dih_at_ok n k i s Hn Gk Hi Hs). destruct (dtwo n k).
  - change (upto 2) with [0; 1]. rewrite !csum_cons, csum_nil. destruct Hs; subst s; ev; ring.
  - change (upto 1) with [0]. rewrite !csum_cons, csum_nil. change (Z.to_nat (0 * 1 + 0)) with 0%nat. cbn [nth]. ring.
Qed.
Lemma dih_character_rot n k i : 1 <= n -> dgood n k -> 0 <= i < n ->
  character (dih_irrep n k) i = if dtwo n k then cadd (wn n (dp n k * i)) (wn n (- (dp n k * i))) else done_ n k i 1.
Proof. intros Hn Gk Hi. pose proof (dih_character n k i 1 Hn Gk Hi (or_introl eq_refl)) as E. unfold dih_index in E; cbn [d_i d_s Z.eqb Pos.eqb] in E. rewrite Z.mul_0_r, Z.add_0_r in E. exact E. Qed.
Lemma dih_character_ref n k i : 1 <= n -> dgood n k -> 0 <= i < n -> character (dih_irrep n k) (i + n) = if dtwo n k then cx0 else done_ n k i (-1).
Proof. intros Hn Gk Hi. pose proof (dih_character n k i (-1) Hn Gk Hi (or_intror eq_refl)) as E. unfold dih_index in E; cbn [d_i d_s Z.eqb Pos.eqb] in E. rewrite Z.mul_1_r in E. exact E. Qed.

(* done_ as a power of the root of unity *)
Definition dm (n k : Z) : Z := if (k =? 0) || (k =? 1) then 0 else n / 2.
Definition sg (k s : Z) : R := if k =? 1 then IZR s else 1%R.
Lemma done_wn n k i s : 1 <= n -> dgood n k -> dtwo n k = false -> done_ n k i s = cmul (creal (sg k s)) (wn n (dm n k * i)).
Proof.
  intros Hn Gk T. unfold done_, dm, sg, dtwo in *. destruct (Z.eqb_spec k 0) as [->|K0]; cbn [orb]; [change (0 =? 1) with false; cbn iota; rewrite Z.mul_0_l, wn_0, creal_1; ring|]. destruct (Z.eqb_spec k 1) as [->|K1]; [rewrite Z.mul_0_l, wn_0; ring|].
  cbn [negb andb] in T. assert (Z.even n = true) as Ev by (destruct (Z.even n); auto; discriminate). apply Z.even_spec in Ev as (h & ->). rewrite (Z.mul_comm 2 h), Z.div_mul by lia. rewrite (Z.mul_comm h 2), (par_wn h) by lia. rewrite creal_1. ring.
Qed.
Lemma dm_even n k : 1 <= n -> dtwo n k = false -> k <> 0 -> k <> 1 -> k = 2 /\ 2 * (n / 2) = n.
Proof.
  intros Hn T K0 K1. unfold dtwo in T. destruct (Z.eqb_spec k 0), (Z.eqb_spec k 1); try contradiction. cbn [negb andb] in T. apply negb_false_iff, andb_true_iff in T as (Ev & K). apply Z.even_spec in Ev as (h & ->). rewrite (Z.mul_comm 2 h), Z.div_mul by lia. lia.
Qed.

Lemma dp_inj n k l : dgood n k -> dgood n l -> dp n k = dp n l -> k = l.
Proof. unfold dp. destruct (Z.even n); lia. Qed.

Lemma dih_orthogonal n k l : 1 <= n -> dgood n k -> dgood n l ->
  csum (upto (2 * n)) (fun j => cmul (character (dih_irrep n k) j) (cconj (character (dih_irrep n l) j))) = if k =? l then creal (IZR (2 * n)) else cx0.
Proof.
  intros Hn Gk Gl. rewrite upto_double by lia.
  rewrite (csum_ext (upto n) (fun j => cmul (character (dih_irrep n k) j) (cconj (character (dih_irrep n l) j))) (fun i => cmul (if dtwo n k then cadd (wn n (dp n k * i)) (wn n (- (dp n k * i))) else done_ n k i 1) (cconj (if dtwo n l then cadd (wn n (dp n l * i)) (wn n (- (dp n l * i))) else done_ n l i 1)))) by (intros i Hi; apply in_upto in Hi; rewrite !dih_character_rot by auto; reflexivity).
  rewrite (csum_ext (upto n) (fun i => cmul (character (dih_irrep n k) (i + n)) (cconj (character (dih_irrep n l) (i + n)))) (fun i => cmul (if dtwo n k then cx0 else done_ n k i (-1)) (cconj (if dtwo n l then cx0 else done_ n l i (-1))))) by (intros i Hi; apply in_upto in Hi; rewrite !dih_character_ref by auto; reflexivity).
  assert (forall m m' c, 0 < Z.abs (m - m') < n -> csum (upto n) (fun j => cmul c (cmul (wn n (m * j)) (wn n (- (m' * j))))) = cx0) as W.
  { intros m m' c H. rewrite csum_scal, (csum_ext _ _ (fun j => wn n ((m - m') * j))) by (intros; rewrite <- wn_add; f_equal; ring). rewrite wsum_ne by lia. ring. }
  assert (forall m c, csum (upto n) (fun j => cmul c (cmul (wn n (m * j)) (wn n (- (m * j))))) = cmul c (creal (IZR n))) as W0.
  { intros m c. rewrite csum_scal, (csum_ext _ _ (fun j => cx1)) by (intros; rewrite <- wn_add, Z.add_opp_diag_r; apply wn_0). rewrite wsum_0 by lia. reflexivity. }
  destruct (dtwo n k) eqn:Tk; destruct (dtwo n l) eqn:Tl.
  - destruct (dp_bound n k Hn Gk Tk) as (A1 & A2). destruct (dp_bound n l Hn Gl Tl) as (B1 & B2).
    rewrite (csum_0 _ (fun i => cmul cx0 (cconj cx0))) by (intros; ring).
    rewrite (csum_ext _ _ (fun i => cadd (cadd (cmul cx1 (cmul (wn n (dp n k * i)) (wn n (- (dp n l * i))))) (cmul cx1 (cmul (wn n (dp n k * i)) (wn n (- (- dp n l * i)))))) (cadd (cmul cx1 (cmul (wn n (- dp n k * i)) (wn n (- (dp n l * i))))) (cmul cx1 (cmul (wn n (- dp n k * i)) (wn n (- (- dp n l * i)))))))).
    2: { intros i _. rewrite cconj_add, !wn_conj, !Z.mul_opp_l. ring. }
    rewrite !csum_plus. rewrite (W (dp n k) (- dp n l)), (W (- dp n k) (dp n l)) by lia. destruct (Z.eqb_spec k l) as [<-|E].
    + rewrite !W0. rewrite mult_IZR, <- (creal_mul 2). replace (creal 2) with (cadd cx1 cx1) by (rewrite <- creal_1, creal_add; f_equal; lra). ring.
    + assert (dp n k <> dp n l) by (intros K; apply E; apply (dp_inj n); auto). rewrite !W by lia. ring.
  - destruct (dp_bound n k Hn Gk Tk) as (A1 & A2). rewrite (csum_0 _ (fun i => cmul cx0 _)) by (intros; ring).
    rewrite (csum_ext _ _ (fun i => cadd (cmul (creal (sg l 1)) (cmul (wn n (dp n k * i)) (wn n (- (dm n l * i))))) (cmul (creal (sg l 1)) (cmul (wn n (- dp n k * i)) (wn n (- (dm n l * i))))))).
    2: { intros i _. rewrite done_wn by auto. rewrite cconj_mul, cconj_real, wn_conj, !Z.mul_opp_l. ring. }
    assert (dm n l = 0 \/ 2 * dm n l = n). { unfold dm. destruct (Z.eqb_spec l 0), (Z.eqb_spec l 1); cbn [orb]; try lia. destruct (dm_even n l); auto. }
    rewrite csum_plus, !W by lia. destruct (Z.eqb_spec k l) as [<-|E]; [congruence|]. ring.
  - destruct (dp_bound n l Hn Gl Tl) as (A1 & A2). rewrite (csum_0 _ (fun i => cmul _ (cconj cx0))) by (intros; rewrite cconj_0; ring).
    rewrite (csum_ext _ _ (fun i => cadd (cmul (creal (sg k 1)) (cmul (wn n (dm n k * i)) (wn n (- (dp n l * i))))) (cmul (creal (sg k 1)) (cmul (wn n (dm n k * i)) (wn n (- (- dp n l * i))))))).
    2: { intros i _. rewrite done_wn by auto. rewrite cconj_add, !wn_conj, !Z.mul_opp_l. ring. }
    assert (dm n k = 0 \/ 2 * dm n k = n). { unfold dm. destruct (Z.eqb_spec k 0), (Z.eqb_spec k 1); cbn [orb]; try lia. destruct (dm_even n k); auto. }
    rewrite csum_plus, !W by lia. destruct (Z.eqb_spec k l) as [<-|E]; [congruence|]. ring.
  - rewrite (csum_ext _ (fun i => cmul (done_ n k i 1) _) (fun i => cmul (creal (sg k 1 * sg l 1)) (cmul (wn n (dm n k * i)) (wn n (- (dm n l * i)))))).
    2: { intros i _. rewrite !done_wn by auto. rewrite cconj_mul, cconj_real, wn_conj, <- creal_mul. ring. }
    rewrite (csum_ext _ (fun i => cmul (done_ n k i (-1)) _) (fun i => cmul (creal (sg k (-1) * sg l (-1))) (cmul (wn n (dm n k * i)) (wn n (- (dm n l * i)))))).
    2: { intros i _. rewrite !done_wn by auto. rewrite cconj_mul, cconj_real, wn_conj, <- creal_mul. ring. }
    assert (forall j, dtwo n j = false -> j = 0 /\ dm n j = 0 \/ j = 1 /\ dm n j = 0 \/ j = 2 /\ 2 * dm n j = n) as K.
    { intros j T. unfold dm. destruct (Z.eqb_spec j 0); cbn [orb]; [left; auto|]. destruct (Z.eqb_spec j 1); [right; left; auto|]. right; right. apply dm_even; auto. }
    assert (creal (IZR (2 * n)) = cadd (creal (IZR n)) (creal (IZR n))) as -> by (rewrite creal_add, mult_IZR; f_equal; lra). unfold sg.
    destruct (K k Tk) as [(-> & Mk)|[(-> & Mk)|(-> & Mk)]]; destruct (K l Tl) as [(-> & Ml)|[(-> & Ml)|(-> & Ml)]]; cbn [Z.eqb Pos.eqb];
      try (rewrite !W by lia; ring); rewrite ?Mk, ?Ml, ?W0; try (assert (dm n 2 = dm n 2) by auto); rewrite !creal_mul, creal_add; try (rewrite <- ?creal_0; f_equal; lra); try (rewrite creal_add; f_equal; lra).
Qed.

(* the squares of the dimensions add up to the order of the group *)
Lemma zsum_app a b : fold_right Z.add 0 (a ++ b) = fold_right Z.add 0 a + fold_right Z.add 0 b.
Proof. induction a as [|x a IH]; cbn [fold_right app]; lia. Qed.
Lemma dih_squares n : 1 <= n -> fold_right Z.add 0 (map (fun k => i_dim (dih_irrep n k) * i_dim (dih_irrep n k)) (upto (dih_nirreps n))) = 2 * n.
Proof.
  intros Hn. cbn [dih_irrep i_dim]. rewrite nirr_ok by lia. set (c := if Z.even n then 4 else 2).
  assert (forall k, dih_dim n k = if k <? c then 1 else 2) as Dm. { intros k. unfold dih_dim, c. rewrite rem2_even by lia. destruct (Z.even n); reflexivity. }
  assert (forall t, 0 <= t -> fold_right Z.add 0 (map (fun k => dih_dim n k * dih_dim n k) (upto (c + t))) = c + 4 * t) as T.
  { intros t Ht. pattern t. apply natlike_ind; auto.
    - rewrite Z.add_0_r. rewrite (map_ext_in _ (fun _ => 1)). + unfold c; destruct (Z.even n); reflexivity. + intros k Hk. apply in_upto in Hk. rewrite Dm. destruct (Z.ltb_spec k c); lia.
    - intros x Hx IH. replace (c + Z.succ x) with (c + x + 1) by lia. assert (0 <= c) by (unfold c; destruct (Z.even n); lia). rewrite upto_snoc, map_app, zsum_app, IH by lia. cbn [map fold_right]. rewrite Dm. destruct (Z.ltb_spec (c + x) c); lia. }
  pose proof (Z.div_mod n 2 ltac:(lia)). pose proof (Z.mod_pos_bound n 2 ltac:(lia)). pose proof (Zeven_mod n) as Em. unfold c in *. destruct (Z.even n) eqn:E.
  - symmetry in Em. apply Zeq_bool_eq in Em. replace (n / 2 + 3) with (4 + (n / 2 - 1)) by lia. rewrite T by lia. lia.
  - symmetry in Em. apply Zeq_bool_neq in Em. replace (n / 2 + 2) with (2 + n / 2) by lia. rewrite T by lia. lia.
Qed.

(* irrep 3 of an even dihedral group: dim() is 1 but operator() gives a 2 x 2 matrix *)
Lemma dih_third n i : 1 <= n -> Z.even n = true -> 0 <= i -> 3 < dih_nirreps n /\ i_dim (dih_irrep n 3) = 1 /\ length (t_v (i_at (dih_irrep n 3) i)) = 4%nat.
Proof.
  intros Hn E Hi. rewrite nirr_ok, E by lia. split; [apply Z.even_spec in E as (h & ->); rewrite (Z.mul_comm 2 h), Z.div_mul; lia|]. cbn [dih_irrep i_dim i_at]. unfold dih_dim, dih_at. rewrite rem2_even, E by lia. split; [reflexivity|]. cbn [Z.eqb Pos.eqb andb]. destruct (i <? n); reflexivity.
Qed.

(* D(h) = 1 + sum of w^p + w^-p *)
Lemma dirichlet n i h : 0 <= h -> cmul (csub (wn n i) cx1) (cadd cx1 (csum (zrange 1 (h + 1)) (fun p => cadd (wn n (p * i)) (wn n (- (p * i)))))) = csub (wn n ((h + 1) * i)) (wn n (- (h * i))).
Proof.
  intros Hh. pattern h. apply natlike_ind; auto.
  - rewrite zrange_nil, csum_nil by lia. rewrite Z.mul_0_l. change (- 0) with 0. rewrite wn_0. replace ((0 + 1) * i) with i by lia. ring.
  - intros x Hx IH. unfold Z.succ. rewrite (zrange_snoc 1 (x + 1)), csum_app, csum_cons, csum_nil by lia.
    transitivity (cadd (csub (wn n ((x + 1) * i)) (wn n (- (x * i)))) (cmul (csub (wn n i) cx1) (cadd (wn n ((x + 1) * i)) (wn n (- ((x + 1) * i)))))); [rewrite <- IH; ring|].
    replace ((x + 1 + 1) * i) with ((x + 1) * i + i) by ring. replace (- (x * i)) with (- ((x + 1) * i) + i) by ring. rewrite (wn_add n ((x + 1) * i) i), (wn_add n (- ((x + 1) * i)) i). ring.
Qed.

Lemma odd_half n : Z.even n = false -> 1 <= n -> exists h, 0 <= h /\ n = 2 * h + 1 /\ dih_nirreps n = h + 2.
Proof.
  intros E Hn. rewrite nirr_ok, E by lia. assert (Z.odd n = true) as O by (rewrite <- Z.negb_even, E; reflexivity). apply Z.odd_spec in O as (b & ->). exists b. split; [lia|]. split; [auto|]. f_equal. symmetry. apply (Z.div_unique _ _ _ 1); lia.
Qed.

Lemma dih_complete n : 1 <= n -> Z.even n = false -> complete_irreps (dihedral n) (dih_index n) (dih_nirreps n) (fun k => Ret (dih_irrep n k)).
Proof.
  intros Hn Ev. assert (forall k, 0 <= k < dih_nirreps n -> dgood n k) as Good by (intros k Hk; split; auto; intros (A & _); congruence). split; [intros i Hi; eexists; split; [reflexivity|apply dih_unitary; auto]|].
  intros rhos F j Hj. cbn [dihedral g_size g_identity] in *.
  assert (rhos = map (fun k => dih_irrep n k) (upto (dih_nirreps n))) as ->. { clear Hj Good. induction F as [|k rho K rs E F IH]; [reflexivity|]. cbn [map]. apply Ret_inj in E. subst. f_equal; auto. }
  rewrite csum_map. change (dih_index n {| d_n := n; d_i := 0; d_s := 1 |}) with (0 + n * 0). replace (0 + n * 0) with 0 by lia.
  destruct (odd_half n Ev Hn) as (h & Hh & En & Ni). rewrite Ni in *. assert (upto (h + 2) = 0 :: 1 :: map (fun p => p + 1) (zrange 1 (h + 1))) as ->.
  { rewrite upto_zrange, zrange_cons, zrange_cons by lia. change (0 + 1) with 1. change (1 + 1) with 2. do 2 f_equal. unfold zrange. rewrite map_map. replace (h + 2 - 2) with (h + 1 - 1) by lia. apply map_ext. intros; lia. }
  rewrite !csum_cons, csum_map. cbn [dih_irrep i_dim]. unfold dih_dim. rewrite rem2_even, Ev by lia. change (0 <? 2 * (1 + 0)) with true. change (1 <? 2 * (1 + 0)) with true. cbn iota.
  assert (dgood n 0) as G0 by (apply Good; lia). assert (dgood n 1) as G1 by (apply Good; lia).
  assert (dtwo n 0 = false) as T0 by reflexivity. assert (dtwo n 1 = false) as T1 by reflexivity.
  assert (forall p, In p (zrange 1 (h + 1)) -> dgood n (p + 1) /\ dtwo n (p + 1) = true /\ dp n (p + 1) = p /\ (p + 1 <? 2 * (1 + 0)) = false) as Tp.
  { intros p Hp. apply in_zrange in Hp. split; [apply Good; lia|]. unfold dtwo, dp. rewrite Ev. destruct (Z.eqb_spec (p + 1) 0), (Z.eqb_spec (p + 1) 1), (Z.ltb_spec (p + 1) (2 * (1 + 0))); try lia. }
  change (mkI 1 (dih_at n 0)) with (dih_irrep n 0). change (mkI 1 (dih_at n 1)) with (dih_irrep n 1).
  destruct (Z_lt_ge_dec j n) as [Lj|Lj].
  - rewrite !dih_character_rot by (auto; lia). rewrite T0, T1. change (done_ n 0 j 1) with cx1. change (done_ n 1 j 1) with cx1.
    rewrite (csum_ext _ _ (fun p => cmul (creal 2) (cadd (wn n (p * j)) (wn n (- (p * j)))))).
    2: { intros p Hp. destruct (Tp p Hp) as (Gp & T2 & Dp & Lt). rewrite Lt. rewrite dih_character_rot by (auto; lia). rewrite T2, Dp. reflexivity. }
    rewrite csum_scal. set (Dd := csum (zrange 1 (h + 1)) (fun p => cadd (wn n (p * j)) (wn n (- (p * j))))).
    replace (cadd (cmul (creal 1) cx1) (cadd (cmul (creal 1) cx1) (cmul (creal 2) Dd))) with (cmul (creal 2) (cadd cx1 Dd)) by (replace (creal 2) with (cadd cx1 cx1) by (rewrite <- creal_1, creal_add; f_equal; lra); rewrite creal_1; ring).
    destruct (Z.eqb_spec j 0) as [->|J].
    + unfold Dd. rewrite (csum_ext _ _ (fun _ => cadd cx1 cx1)) by (intros; rewrite Z.mul_0_r; change (- 0) with 0; rewrite wn_0; reflexivity). rewrite csum_const, zlen_zrange. rewrite <- creal_1, !creal_add, creal_mul, creal_add, creal_mul. f_equal. rewrite En. replace (Z.max 0 (h + 1 - 1)) with h by lia. rewrite mult_IZR, plus_IZR, mult_IZR. ring.
    + assert (cadd cx1 Dd = cx0) as ->; [|ring]. apply (cmul_cancel (csub (wn n j) cx1)).
      * intros K. assert (wn n j = cx1) as K1. { assert (E1 := f_equal fst K). assert (E2 := f_equal snd K). unfold csub, cx0 in E1, E2; cbn [fst snd] in E1, E2. apply cx_eq; lra. } apply wn_one in K1; [|lia]. rewrite Z.mod_small in K1 by lia. lia.
      * unfold Dd. rewrite dirichlet by lia. replace ((h + 1) * j) with (- (h * j) + n * j) by (rewrite En; ring). rewrite wn_period by lia. ring.
  - replace j with (j - n + n) by lia. rewrite !dih_character_ref by (auto; lia). rewrite T0, T1. change (done_ n 0 (j - n) (-1)) with cx1. change (done_ n 1 (j - n) (-1)) with (creal (-1)).
    rewrite csum_0. + replace (j - n + n =? 0) with false by lia. rewrite !creal_1. rewrite <- creal_0, <- creal_1, !creal_mul, !creal_add. f_equal. ring.
    + intros p Hp. destruct (Tp p Hp) as (Gp & T2 & Dp & Lt). rewrite dih_character_ref by (auto; lia). rewrite T2. ring.
Qed.
