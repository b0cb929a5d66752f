(* Functions on a finite group and their Fourier transform (C57, C72). *)
From Coq Require Import ZArith List Bool Lia ZifyBool Reals Lra Ring.
From Verif Require Import Model_Base Model_Group Spec_Group Proof_Base Proof_Cx Proof_Group Proof_GroupRep.
Import ListNotations.
Open Scope Z_scope.

Lemma znth_combine {A B} (l : list A) (m : list B) i a b : zlen l = zlen m -> 0 <= i < zlen l -> znth (combine l m) i (a, b) = (znth l i a, znth m i b).
Proof. intros L Hi. unfold znth. apply combine_nth. unfold zlen in L. lia. Qed.
Lemma zlen_combine {A B} (l : list A) (m : list B) : zlen l = zlen m -> zlen (combine l m) = zlen l.
Proof. unfold zlen. intros. rewrite combine_length. lia. Qed.

Lemma csum_upto {A} (l : list A) d (g : A -> R * R) : csum l g = csum (upto (zlen l)) (fun i => g (znth l i d)).
Proof. rewrite upto_zrange. rewrite <- (csum_map (fun i => znth l i d)), map_znth_zrange. reflexivity. Qed.

Lemma t_add_ok r x c : zlen (t_v r) = zlen (t_v x) -> exists y, t_add r x c = Ret y /\ t_dims y = t_dims r /\ zlen (t_v y) = zlen (t_v r) /\
  forall e, 0 <= e < zlen (t_v r) -> znth (t_v y) e cx0 = cadd (znth (t_v r) e cx0) (cmul (znth (t_v x) e cx0) c).
Proof.
  intros L. unfold t_add. rewrite L, Z.eqb_refl. cbn [assert_ bind]. eexists. split; [reflexivity|]. cbn [t_v t_dims]. split; [auto|]. rewrite zlen_map, zlen_combine by auto. split; [auto|]. intros e He.
  rewrite (znth_map _ _ _ (cx0, cx0)) by (rewrite zlen_combine; lia). rewrite znth_combine by lia. reflexivity.
Qed.

Lemma fold_left_cadd l a : fold_left cadd l a = cadd a (csum l (fun x => x)).
Proof. revert a; induction l as [|x l IH]; intros a; cbn [fold_left]; [rewrite csum_nil; ring|]. rewrite IH, csum_cons. ring. Qed.

Lemma t_inp_ok x y : zlen (t_v x) = zlen (t_v y) -> t_inp x y = Ret (csum (upto (zlen (t_v x))) (fun e => cmul (znth (t_v x) e cx0) (cconj (znth (t_v y) e cx0)))).
Proof.
  intros L. unfold t_inp. rewrite L, Z.eqb_refl. cbn [assert_ bind]. f_equal. rewrite fold_left_cadd, csum_map, (csum_upto _ (cx0, cx0)), zlen_combine by auto. rewrite L.
  transitivity (csum (upto (zlen (t_v y))) (fun e => cmul (znth (t_v x) e cx0) (cconj (znth (t_v y) e cx0)))); [|reflexivity].
  match goal with |- cadd cx0 ?s = _ => transitivity s; [ring|] end. apply csum_ext. intros e He. apply in_upto in He. rewrite znth_combine by lia. reflexivity.
Qed.

Lemma t_fill_ok c d : 0 <= d -> zlen (t_v (t_fill c [d; d])) = d * d /\ forall e, 0 <= e < d * d -> znth (t_v (t_fill c [d; d])) e cx0 = c.
Proof. intros Hd. cbn [t_fill t_v t_asize fold_right]. rewrite Z.mul_1_r, zlen_repeat. split; [nia|]. intros e He. apply znth_repeat. lia. Qed.

Section Fourier.
  Variables (N nirr : Z) (irrep : Z -> outcome girr) (rho : Z -> girr).
  Hypothesis HN : 1 <= N.
  Hypothesis Hi : 0 <= nirr.
  Hypothesis Hrho : forall i, 0 <= i < nirr -> irrep i = Ret (rho i) /\ square N (rho i).

  (* entry number e of the matrix of element j *)
  Definition re (i j e : Z) : R * R := znth (t_v (i_at (rho i) j)) e cx0.
  Definition dd (i : Z) : Z := i_dim (rho i).

  Lemma dd_pos i : 0 <= i < nirr -> 1 <= dd i.
  Proof. intros H. apply (Hrho i H). Qed.
  Lemma re_len i j : 0 <= i < nirr -> 0 <= j < N -> zlen (t_v (i_at (rho i) j)) = dd i * dd i.
  Proof. intros H Hj. apply (proj2 (Hrho i H)). auto. Qed.

  (* part number i of the transform *)
  Definition is_part4 (f : list (R * R)) (i : Z) (P : ctensor) : Prop :=
    t_dims P = [dd i; dd i] /\ zlen (t_v P) = dd i * dd i /\ forall e, 0 <= e < dd i * dd i -> znth (t_v P) e cx0 = csum (upto N) (fun j => cmul (re i j e) (znth f j cx0)).

  Lemma fourier_ok f : zlen f = N -> exists parts, fourier N nirr irrep f = Ret parts /\ zlen parts = nirr /\ forall i d, 0 <= i < nirr -> is_part4 f i (znth parts i d).
  Proof.
    intros Lf. unfold fourier. match goal with |- context [zfor 0 nirr ?b []] => set (body := b) end.
    destruct (zfor_inv (fun k (parts : list ctensor) => zlen parts = k /\ forall i d, 0 <= i < k -> is_part4 f i (znth parts i d)) 0 nirr body []) as (parts & A & B & C); [lia|split; [reflexivity|intros; lia]| |exists parts; auto].
    intros i parts H (L & Q). unfold body at 1. destruct (Hrho i H) as (-> & Sq). cbn [bind]. change (i_dim (rho i)) with (dd i). pose proof (dd_pos i H) as Dp. destruct (t_fill_ok cx0 (dd i) ltac:(lia)) as (F1 & F2).
    match goal with |- context [zfor 0 N ?b _] => set (body2 := b) end.
    destruct (zfor_inv (fun k (P : ctensor) => t_dims P = [dd i; dd i] /\ zlen (t_v P) = dd i * dd i /\ forall e, 0 <= e < dd i * dd i -> znth (t_v P) e cx0 = csum (upto k) (fun j => cmul (re i j e) (znth f j cx0))) 0 N body2 (t_fill cx0 [dd i; dd i])) as (P & A & B).
    - lia.
    - split; [reflexivity|]. split; auto.
    - intros j P Hj (D1 & D2 & D3). unfold body2 at 1. rewrite (rd_ok f j cx0) by lia. cbn [bind]. destruct (t_add_ok P (i_at (rho i) j) (znth f j cx0)) as (P' & E & E1 & E2 & E3); [rewrite re_len by auto; auto|]. rewrite E. exists P'. split; [auto|]. split; [congruence|]. split; [congruence|].
      intros e He. rewrite E3, D3 by lia. rewrite upto_snoc, csum_app, csum_cons, csum_nil by lia. unfold re. ring.
    - rewrite A. cbn [bind]. exists (parts ++ [P]). split; [auto|]. split; [rewrite zlen_app, L; reflexivity|]. intros i' d Hi'. rewrite znth_app by lia. destruct (Z.ltb_spec i' (zlen parts)); [apply Q; lia|]. replace (i' - zlen parts) with 0 by lia. replace i' with i by lia. exact B.
  Qed.

  (* the value the inverse transform gives at element j *)
  Definition ival (parts : list ctensor) (i j : Z) : R * R :=
    cmul (csum (upto (dd i * dd i)) (fun e => cmul (znth (t_v (znth parts i (mkT [] []))) e cx0) (cconj (re i j e)))) (creal (IZR (dd i) / IZR N)).

  Lemma ifourier_ok parts : zlen parts = nirr -> (forall i d, 0 <= i < nirr -> zlen (t_v (znth parts i d)) = dd i * dd i) ->
    exists f, ifourier N nirr irrep parts = Ret f /\ zlen f = N /\ forall j, 0 <= j < N -> znth f j cx0 = csum (upto nirr) (fun i => ival parts i j).
  Proof.
    intros Lp LP. unfold ifourier. match goal with |- context [zfor 0 nirr ?b _] => set (body := b) end.
    destruct (zfor_inv (fun k (f : list (R * R)) => zlen f = N /\ forall j, 0 <= j < N -> znth f j cx0 = csum (upto k) (fun i => ival parts i j)) 0 nirr body (repeat cx0 (Z.to_nat N))) as (f & A & B & C); [lia| | |exists f; auto].
    - split; [rewrite zlen_repeat; lia|]. intros j Hj. apply znth_repeat. lia.
    - intros i f H (L & Q). unfold body at 1. destruct (Hrho i H) as (-> & Sq). cbn [bind]. cbv zeta. change (i_dim (rho i)) with (dd i). match goal with |- context [zfor 0 N ?b _] => set (body2 := b) end.
      destruct (zfor_inv (fun k (g : list (R * R)) => zlen g = N /\ forall j, 0 <= j < N -> znth g j cx0 = if j <? k then cadd (znth f j cx0) (ival parts i j) else znth f j cx0) 0 N body2 f) as (g & A & B & C).
      + lia.
      + split; [auto|]. intros j Hj. destruct (Z.ltb_spec j 0); [lia|reflexivity].
      + intros j g Hj (Lg & Qg). unfold body2 at 1. rewrite (rd_ok parts i (mkT [] [])) by lia. cbn [bind]. rewrite t_inp_ok by (rewrite LP, re_len by auto; auto). cbn [bind]. rewrite LP by auto. rewrite (rd_ok g j cx0) by lia. cbn [bind]. rewrite wr_ok by lia. eexists. split; [reflexivity|]. rewrite zlen_zupd by lia. split; [auto|].
        intros j' Hj'. rewrite znth_zupd by lia. rewrite !Qg by lia. destruct (Z.eqb_spec j' j) as [->|E].
        * destruct (Z.ltb_spec j j), (Z.ltb_spec j (j + 1)); try lia. reflexivity.
        * destruct (Z.ltb_spec j' j), (Z.ltb_spec j' (j + 1)); try lia; reflexivity.
      + rewrite A. exists g. split; [auto|]. split; [auto|]. intros j Hj. rewrite C, Q by lia. destruct (Z.ltb_spec j N); [|lia]. rewrite upto_snoc, csum_app, csum_cons, csum_nil by lia. ring.
  Qed.
End Fourier.

(* a sum over the entries of a square matrix *)
Lemma csum_square d (g : Z -> R * R) : 0 <= d -> csum (upto (d * d)) g = csum (upto d) (fun p => csum (upto d) (fun q => g (p * d + q))).
Proof.
  intros Hd. assert (forall k, 0 <= k -> csum (upto (k * d)) g = csum (upto k) (fun p => csum (upto d) (fun q => g (p * d + q)))) as T; [|apply T; auto].
  intros k Hk. pattern k. apply natlike_ind; auto. intros x Hx IH. unfold Z.succ. rewrite (upto_snoc x), csum_app, csum_cons, csum_nil, <- IH by lia. rewrite !upto_zrange, (zrange_app 0 (x * d) ((x + 1) * d)), csum_app by nia.
  assert (zrange (x * d) ((x + 1) * d) = map (fun q => x * d + q) (zrange 0 d)) as ->; [|rewrite csum_map; ring].
  unfold zrange. rewrite map_map. replace ((x + 1) * d - x * d) with (d - 0) by ring. apply map_ext. intros; lia.
Qed.

Section Group.
  Context {E : Type} (G : gops E) (index : E -> Z).
  Hypothesis HG : is_group G.
  Hypothesis HI : index_of G index.
  Notation N := (g_size G).

  Lemma index_in x : in_group G x -> 0 <= index x < N /\ g_element G (index x) = Ret x.
  Proof. intros (i & Hi & Ei). rewrite (HI i x) by auto. auto. Qed.
  Lemma index_inj x y : in_group G x -> in_group G y -> index x = index y -> x = y.
  Proof. intros I J Eq. destruct (index_in x I) as (_ & A). destruct (index_in y J) as (_ & B). rewrite Eq in A. congruence. Qed.
  Lemma element_in i : 0 <= i < N -> exists x, g_element G i = Ret x /\ in_group G x /\ index x = i.
  Proof. intros Hi. destruct (gr_element G HG i Hi) as (x & Ex). exists x. split; [auto|]. split; [exists i; auto|]. apply HI; auto. Qed.

  Section Rep.
    Variable rho : girr.
    Hypothesis U : unitary_rep G index rho.
    Notation d := (i_dim rho).
    Notation M := (fun x => entry d (i_at rho (index x))).

    Lemma d_pos : 1 <= d. Proof. apply U. Qed.

    Lemma rep_inverse x y p q : in_group G x -> in_group G y -> g_inverse G x = Ret y -> 0 <= p < d -> 0 <= q < d -> M y p q = cconj (M x q p).
    Proof.
      intros Ix Iy Ei Hp Hq. destruct U as (Sq & Mm & Mi & Mu). destruct (gr_inv G HG x Ix) as (y' & Ey' & _ & _ & Yx). assert (y' = y) by congruence. subst y'.
      transitivity (csum (upto d) (fun k => cmul (M y p k) (if k =? q then cx1 else cx0))).
      { rewrite (csum_single _ q); [rewrite Z.eqb_refl; ring|apply NoDup_upto|apply in_upto; auto|]. intros k _ K. destruct (Z.eqb_spec k q); [contradiction|ring]. }
      rewrite (csum_ext _ _ (fun k => csum (upto d) (fun l => cmul (cmul (M y p k) (M x k l)) (cconj (M x q l))))).
      2: { intros k Hk. apply in_upto in Hk. rewrite <- (Mu x k q) by auto. rewrite <- csum_scal. apply csum_ext. intros; ring. }
      rewrite csum_swap. rewrite (csum_ext _ _ (fun l => cmul (if p =? l then cx1 else cx0) (cconj (M x q l)))).
      2: { intros l Hl. apply in_upto in Hl. rewrite csum_scal_r. f_equal. rewrite <- (Mm y x (g_identity G) p l) by auto. apply Mi; auto. }
      rewrite (csum_single _ p); [rewrite Z.eqb_refl; ring|apply NoDup_upto|apply in_upto; auto|]. intros l _ K. destruct (Z.eqb_spec p l); [congruence|ring].
    Qed.

    (* the inner product of two matrices is a character value *)
    Lemma rep_inp x y yi z : in_group G x -> in_group G y -> g_inverse G y = Ret yi -> g_mul G x yi = Ret z ->
      csum (upto (d * d)) (fun e => cmul (znth (t_v (i_at rho (index x))) e cx0) (cconj (znth (t_v (i_at rho (index y))) e cx0))) = character rho (index z).
    Proof.
      intros Ix Iy Ey Ez. pose proof d_pos. assert (in_group G yi) as Iyi by (destruct (gr_inv G HG y Iy) as (y' & Q & I & _); congruence). rewrite csum_square by lia. unfold character. apply csum_ext. intros p Hp. apply in_upto in Hp.
      destruct U as (Sq & Mm & Mi & Mu). rewrite (Mm x yi z p p) by auto. apply csum_ext. intros q Hq. apply in_upto in Hq. rewrite (rep_inverse y yi q p) by auto. reflexivity.
    Qed.
  End Rep.

  (* Fourier inversion *)
  Section Inversion.
    Variables (nirr : Z) (irrep : Z -> outcome girr).
    Hypothesis C : complete_irreps G index nirr irrep.

    Lemma irrep_fun : exists rho : Z -> girr, forall i, 0 <= i < nirr -> irrep i = Ret (rho i) /\ unitary_rep G index (rho i).
    Proof.
      exists (fun i => match irrep i with Ret r => r | _ => mkI 0 (fun _ => mkT [] []) end). intros i Hi. destruct (proj1 C i Hi) as (r & -> & U). auto.
    Qed.

    Lemma column_orth rho j j' : (forall i, 0 <= i < nirr -> irrep i = Ret (rho i) /\ unitary_rep G index (rho i)) -> 0 <= j < N -> 0 <= j' < N ->
      csum (upto nirr) (fun i => cmul (creal (IZR (dd rho i))) (csum (upto (dd rho i * dd rho i)) (fun e => cmul (re rho i j' e) (cconj (re rho i j e))))) = if j' =? j then creal (IZR N) else cx0.
    Proof.
      intros Hr Hj Hj'. destruct (element_in j Hj) as (y & Ey & Iy & Xy). destruct (element_in j' Hj') as (x & Ex & Ix & Xx). destruct (gr_inv G HG y Iy) as (yi & Eyi & Iyi & Y1 & Y2). destruct (gr_closed G HG x yi Ix Iyi) as (z & Ez & Iz).
      destruct (index_in z Iz) as (Bz & _). pose proof (proj2 C (map rho (upto nirr))) as T. assert (Forall2 (fun i r => irrep i = Ret r) (upto nirr) (map rho (upto nirr))) as F.
      { assert (forall i, In i (upto nirr) -> irrep i = Ret (rho i)) as Q by (intros i Hi; apply in_upto in Hi; apply Hr; auto). revert Q. generalize (upto nirr) as L. induction L as [|a L IH]; intros Q; cbn [map]; constructor; [apply Q; left; auto|apply IH; intros; apply Q; right; auto]. }
      specialize (T F (index z) Bz). rewrite csum_map in T. transitivity (csum (upto nirr) (fun i => cmul (creal (IZR (i_dim (rho i)))) (character (rho i) (index z)))).
      - apply csum_ext. intros i Hi. apply in_upto in Hi. destruct (Hr i Hi) as (_ & U). unfold dd, re. f_equal. rewrite <- (rep_inp (rho i) U x y yi z) by auto. rewrite Xx, Xy. reflexivity.
      - rewrite T. assert ((index z =? index (g_identity G)) = (j' =? j)) as ->; auto. apply eq_true_iff_eq. rewrite !Z.eqb_eq. split; intros Q.
        + apply index_inj in Q; auto; [|apply gr_identity; auto]. subst z. assert (x = y); [|congruence].
          pose proof (gr_assoc G HG x yi y _ _ Ix Iyi Iy Ez Y2) as As. rewrite (gr_id_l G HG), (gr_id_r G HG) in As by auto. congruence.
        + f_equal. assert (x = y) by congruence. subst y. congruence.
    Qed.

    Lemma inversion_ok f : 0 <= nirr -> zlen f = N -> exists parts, fourier N nirr irrep f = Ret parts /\ ifourier N nirr irrep parts = Ret f.
    Proof.
      intros Hn Lf. pose proof (gr_size G HG) as HN. destruct irrep_fun as (rho & Hr). assert (forall i, 0 <= i < nirr -> irrep i = Ret (rho i) /\ square N (rho i)) as Hs by (intros i Hi; destruct (Hr i Hi) as (A & B); split; [auto|apply B]).
      destruct (fourier_ok N nirr irrep rho ltac:(lia) Hn Hs f Lf) as (parts & A & L & Q). exists parts. split; [auto|].
      destruct (ifourier_ok N nirr irrep rho ltac:(lia) Hn Hs parts L) as (g & B & Lg & Qg); [intros i d Hi; apply Q; auto|]. rewrite B. f_equal. apply (list_ext _ _ cx0); [congruence|]. intros j Hj. rewrite Lg in Hj. rewrite Qg by auto. unfold ival.
      rewrite (csum_ext _ _ (fun i => csum (upto N) (fun j' => cmul (cmul (creal (/ IZR N)) (znth f j' cx0)) (cmul (creal (IZR (dd rho i))) (csum (upto (dd rho i * dd rho i)) (fun e => cmul (re rho i j' e) (cconj (re rho i j e)))))))).
      - rewrite csum_swap. rewrite (csum_ext _ _ (fun j' => cmul (cmul (creal (/ IZR N)) (znth f j' cx0)) (if j' =? j then creal (IZR N) else cx0))).
        + rewrite (csum_single _ j); [|apply NoDup_upto|apply in_upto; auto|intros y _ Hy; destruct (Z.eqb_spec y j); [contradiction|ring]]. rewrite Z.eqb_refl. transitivity (cmul (cmul (creal (/ IZR N)) (creal (IZR N))) (znth f j cx0)); [ring|]. rewrite creal_mul, Rinv_l by (apply not_0_IZR; lia). rewrite creal_1. ring.
        + intros j' Hj'. apply in_upto in Hj'. rewrite csum_scal, column_orth by auto. reflexivity.
      - intros i Hi. apply in_upto in Hi. rewrite (csum_ext (upto (dd rho i * dd rho i)) _ (fun e => csum (upto N) (fun j' => cmul (znth f j' cx0) (cmul (re rho i j' e) (cconj (re rho i j e)))))).
        + rewrite csum_swap, <- csum_scal_r. apply csum_ext. intros j' _. rewrite csum_scal. unfold Rdiv. rewrite <- creal_mul. ring.
        + intros e He. apply in_upto in He. destruct (Q i (mkT [] []) Hi) as (_ & _ & Qe). rewrite Qe by auto. rewrite <- csum_scal_r. apply csum_ext. intros; ring.
    Qed.

    (* the parts *)
    Lemma forward_ok f : 0 <= nirr -> zlen f = N -> exists parts, fourier N nirr irrep f = Ret parts /\ zlen parts = nirr /\
      forall i r d, 0 <= i < nirr -> irrep i = Ret r -> t_dims (znth parts i d) = [i_dim r; i_dim r] /\ forall p q, 0 <= p < i_dim r -> 0 <= q < i_dim r ->
        entry (i_dim r) (znth parts i d) p q = csum (upto N) (fun j => cmul (znth f j cx0) (entry (i_dim r) (i_at r j) p q)).
    Proof.
      intros Hn Lf. pose proof (gr_size G HG) as HN. destruct irrep_fun as (rho & Hr). assert (forall i, 0 <= i < nirr -> irrep i = Ret (rho i) /\ square N (rho i)) as Hs by (intros i Hi; destruct (Hr i Hi) as (A & B); split; [auto|apply B]).
      destruct (fourier_ok N nirr irrep rho ltac:(lia) Hn Hs f Lf) as (parts & A & L & Q). exists parts. split; [auto|]. split; [auto|]. intros i r d Hi Er. destruct (Hs i Hi) as (Ei & _). assert (r = rho i) by congruence. subst r. destruct (Q i d Hi) as (Q1 & _ & Q2). split; [exact Q1|].
      intros p q Hp Hq. unfold entry. unfold dd, re, znth in Q2. rewrite Q2 by nia. apply csum_ext. intros j _. unfold znth. ring.
    Qed.
  End Inversion.
End Group.

(* ---- dihedral groups of even degree: the transform stops at irrep 3 ---- *)
Lemma foldM_app_abort {S I} (body : I -> S -> outcome S) l x l' s s' : foldM body l s = Ret s' -> body x s' = Abort -> foldM body (l ++ x :: l') s = Abort.
Proof. intros A B. rewrite foldM_app, A. cbn [bind foldM]. rewrite B. reflexivity. Qed.

Lemma fourier_prefix N nirr irrep k f : 0 <= k <= nirr -> fourier N nirr irrep f = (p <- fourier N k irrep f ;;
  foldM (fun i parts => rho <- irrep i ;; P <- zfor 0 N (fun j P => v <- rd f j ;; t_add P (i_at rho j) v) (t_fill cx0 [i_dim rho; i_dim rho]) ;; Ret (parts ++ [P])) (zrange k nirr) p).
Proof. intros Hk. unfold fourier, zfor at 1. rewrite (zrange_app 0 k nirr) by lia. rewrite foldM_app. reflexivity. Qed.

Lemma dih_even_aborts n f : 1 <= n -> Z.even n = true -> zlen f = 2 * n -> fourier (2 * n) (dih_nirreps n) (fun k => Ret (dih_irrep n k)) f = Abort.
Proof.
  intros Hn Ev Lf. destruct (dih_third n 0 Hn Ev ltac:(lia)) as (N3 & D3 & L3). rewrite (fourier_prefix _ _ _ 3) by lia.
  destruct (fourier_ok (2 * n) 3 (fun k => Ret (dih_irrep n k)) (fun k => dih_irrep n k) ltac:(lia) ltac:(lia)) with (f := f) as (parts & A & _ & _); auto.
  { intros i Hi. split; [auto|]. apply (dih_unitary n i Hn). split; [lia|]. intros (_ & ->). lia. }
  rewrite A. cbn [bind]. rewrite (zrange_cons 3) by lia. cbn [foldM bind]. rewrite D3. unfold zfor. rewrite (zrange_cons 0 (2 * n)) by lia. cbn [foldM]. rewrite (rd_ok f 0 cx0) by lia. cbn [bind]. unfold t_add at 1. unfold zlen at 2. rewrite L3. reflexivity.
Qed.

(* ---- product groups: every irrep is the zero matrix ---- *)
Lemma pr_irrep_ok irrep1 irrep2 n2 i r1 r2 : 0 <= i -> 1 <= n2 -> irrep1 (i / n2) = Ret r1 -> irrep2 (i mod n2) = Ret r2 -> pr_irrep irrep1 irrep2 n2 i = Ret (pr_irrep2 r1 r2).
Proof.
  intros Hi Hn A B. unfold pr_irrep, cdiv, cmod. replace (n2 =? 0) with false by lia. cbn [bind]. rewrite Z.quot_div_nonneg, Z.rem_mod_nonneg by lia. rewrite A. cbn [bind]. rewrite B. reflexivity.
Qed.

Lemma product_fourier N n1 n2 irrep1 irrep2 f : 1 <= N -> 0 <= n1 -> 1 <= n2 -> (forall i, 0 <= i < n1 -> exists r, irrep1 i = Ret r /\ 1 <= i_dim r) -> (forall i, 0 <= i < n2 -> exists r, irrep2 i = Ret r /\ 1 <= i_dim r) ->
  zlen f = N -> exists parts, fourier N (pr_nirreps n1 n2) (pr_irrep irrep1 irrep2 n2) f = Ret parts /\ ifourier N (pr_nirreps n1 n2) (pr_irrep irrep1 irrep2 n2) parts = Ret (repeat cx0 (Z.to_nat N)).
Proof.
  intros HN H1 H2 I1 I2 Lf. unfold pr_nirreps. set (irrep := pr_irrep irrep1 irrep2 n2).
  assert (forall i, 0 <= i < n1 * n2 -> exists r1 r2, irrep i = Ret (pr_irrep2 r1 r2) /\ 1 <= i_dim r1 /\ 1 <= i_dim r2) as I.
  { intros i Hi. destruct (I1 (i / n2)) as (r1 & E1 & D1); [split; [apply Z.div_pos; lia|apply Z.div_lt_upper_bound; lia]|]. destruct (I2 (i mod n2)) as (r2 & E2 & D2); [apply Z.mod_pos_bound; lia|]. exists r1, r2. split; [apply pr_irrep_ok; auto; lia|auto]. }
  set (rho := fun i => match irrep i with Ret r => r | _ => mkI 0 (fun _ => mkT [] []) end).
  assert (forall i, 0 <= i < n1 * n2 -> irrep i = Ret (rho i) /\ square N (rho i)) as Hs.
  { intros i Hi. destruct (I i Hi) as (r1 & r2 & E & D1 & D2). unfold rho. rewrite E. split; auto. split; [cbn; nia|]. intros j _. cbn [pr_irrep2 i_at i_dim]. apply (t_fill_ok cx0 (i_dim r1 * i_dim r2)). nia. }
  assert (forall i j e, 0 <= i < n1 * n2 -> 0 <= j < N -> 0 <= e < dd rho i * dd rho i -> re rho i j e = cx0) as Z0.
  { intros i j e Hi Hj He. unfold re, dd in *. destruct (I i Hi) as (r1 & r2 & E & D1 & D2). unfold rho in *. rewrite E in *. cbn [pr_irrep2 i_at i_dim] in *. apply (t_fill_ok cx0 (i_dim r1 * i_dim r2)); [nia|auto]. }
  destruct (fourier_ok N (n1 * n2) irrep rho HN ltac:(nia) Hs f Lf) as (parts & A & L & Q). exists parts. split; [auto|]. destruct (ifourier_ok N (n1 * n2) irrep rho HN ltac:(nia) Hs parts L) as (g & B & Lg & Qg); [intros i d Hi; apply Q; auto|].
  rewrite B. f_equal. apply (list_ext _ _ cx0); [rewrite zlen_repeat; lia|]. intros j Hj. rewrite Lg in Hj. rewrite Qg, znth_repeat by lia. apply csum_0. intros i Hi. apply in_upto in Hi. unfold ival. rewrite (csum_0 (upto (dd rho i * dd rho i))); [ring|]. intros e He. apply in_upto in He. rewrite Z0 by auto. rewrite cconj_0. ring.
Qed.
