(* Translations and inversion of functions on a group, and what they do to the Fourier transform (C72). *)
From Coq Require Import ZArith List Bool Lia ZifyBool Reals Lra Ring.
From Verif Require Import Model_Base Model_Group Spec_Group Proof_Base Proof_Cx Proof_Group Proof_GroupRep Proof_GroupFour.
Import ListNotations.
Open Scope Z_scope.

Section Scatter.
  Context {E A : Type} (G : gops E) (index : E -> Z) (d : A).
  Hypothesis HG : is_group G.
  Hypothesis HI : index_of G index.
  Notation N := (g_size G).
  Variables (f : list A) (move : E -> outcome E) (mv gi : E -> E).
  Hypothesis Lf : zlen f = N.
  Hypothesis M1 : forall x, in_group G x -> move x = Ret (mv x) /\ in_group G (mv x).
  Hypothesis M2 : forall x, in_group G x -> in_group G (gi x) /\ mv (gi x) = x /\ gi (mv x) = x.

  Lemma scatter_ok : exists h, fg_scatter G index f move = Ret h /\ zlen h = N /\ forall x, in_group G x -> znth h (index (mv x)) d = znth f (index x) d.
  Proof.
    pose proof (gr_size G HG) as HN. pose proof (element_in G index HG HI) as EI. unfold fg_scatter. match goal with |- context [zfor 0 N ?b _] => set (body := b) end.
    destruct (zfor_inv (fun k (b : list (option A)) => zlen b = N /\ forall x, in_group G x -> index x < k -> znth b (index (mv x)) None = Some (znth f (index x) d)) 0 N body (repeat None (Z.to_nat N))) as (b & E1 & E2 & E3).
    - lia.
    - split; [rewrite zlen_repeat; lia|]. intros x Ix Hx. destruct (index_in G index HI x Ix). lia.
    - intros i b Hi (Lb & Q). destruct (EI i Hi) as (y & Ey & Iy & Xy). unfold body at 1. rewrite Ey. cbn [bind]. destruct (M1 y Iy) as (-> & Imy). cbn [bind]. unfold fg_get. rewrite (rd_ok f i d) by lia. cbn [bind]. destruct (index_in G index HI _ Imy) as (Bm & _). rewrite wr_ok by lia. eexists. split; [reflexivity|]. rewrite zlen_zupd by lia. split; [auto|].
      intros x Ix Hx. destruct (M1 x Ix) as (_ & Imx). destruct (index_in G index HI _ Imx) as (Bx & _). rewrite znth_zupd by lia. destruct (Z.eqb_spec (index (mv x)) (index (mv y))) as [K|K].
      + apply (index_inj G index HI) in K; auto. assert (x = y) by (rewrite <- (proj2 (proj2 (M2 x Ix))), <- (proj2 (proj2 (M2 y Iy))); congruence). subst y. congruence.
      + apply Q; auto. assert (index x <> i) by (intros <-; apply K; apply (index_inj G index HI) in Xy; congruence). lia.
    - rewrite E1. cbn [bind]. assert (forall i, 0 <= i < N -> exists x, in_group G x /\ index (mv x) = i) as Sj.
      { intros i Hi. destruct (EI i Hi) as (y & Ey & Iy & Xy). destruct (M2 y Iy) as (Ig & Eg & _). exists (gi y). rewrite Eg. auto. }
      rewrite (freeze_ok b (map (fun o => match o with Some v => v | None => d end) b) d).
      + eexists. split; [reflexivity|]. rewrite zlen_map. split; [auto|]. intros x Ix. destruct (M1 x Ix) as (_ & Imx). destruct (index_in G index HI _ Imx) as (Bm & _). rewrite (znth_map _ _ _ None) by lia. rewrite E3; auto. destruct (index_in G index HI x Ix). lia.
      + rewrite zlen_map. auto.
      + intros i Hi. rewrite zlen_map in Hi. destruct (Sj i ltac:(lia)) as (x & Ix & Xi). assert (znth b i None = Some (znth f (index x) d)) as K by (rewrite <- Xi; apply E3; auto; destruct (index_in G index HI x Ix); lia). rewrite (znth_map _ _ _ None) by lia. rewrite K. reflexivity.
  Qed.
End Scatter.

Section Translate.
  Context {E A : Type} (G : gops E) (index : E -> Z).
  Hypothesis HG : is_group G.
  Hypothesis HI : index_of G index.
  Notation N := (g_size G).

  (* total versions of the operations *)
  Definition gm (x y : E) : E := match g_mul G x y with Ret z => z | _ => x end.
  Definition gv (x : E) : E := match g_inverse G x with Ret z => z | _ => x end.
  Lemma gm_ok x y : in_group G x -> in_group G y -> g_mul G x y = Ret (gm x y) /\ in_group G (gm x y).
  Proof. intros I J. unfold gm. destruct (gr_closed G HG x y I J) as (z & -> & K). auto. Qed.
  Lemma gv_ok x : in_group G x -> g_inverse G x = Ret (gv x) /\ in_group G (gv x) /\ gm x (gv x) = g_identity G /\ gm (gv x) x = g_identity G.
  Proof. intros I. unfold gv, gm. destruct (gr_inv G HG x I) as (y & -> & K & A1 & A2). rewrite A1, A2. auto. Qed.
  Lemma gm_assoc x y z : in_group G x -> in_group G y -> in_group G z -> gm (gm x y) z = gm x (gm y z).
  Proof. intros I J K. destruct (gm_ok x y I J) as (A1 & _). destruct (gm_ok y z J K) as (A2 & _). pose proof (gr_assoc G HG x y z _ _ I J K A1 A2) as Q. unfold gm at 1 3. rewrite Q. destruct (gm_ok x (gm y z) I (proj2 (gm_ok y z J K))) as (-> & _). reflexivity. Qed.
  Lemma gm_id_l x : in_group G x -> gm (g_identity G) x = x.
  Proof. intros I. unfold gm. rewrite (gr_id_l G HG) by auto. reflexivity. Qed.
  Lemma gm_id_r x : in_group G x -> gm x (g_identity G) = x.
  Proof. intros I. unfold gm. rewrite (gr_id_r G HG) by auto. reflexivity. Qed.
  Lemma gv_gv x : in_group G x -> gv (gv x) = x.
  Proof.
    intros I. destruct (gv_ok x I) as (_ & I1 & A1 & A2). destruct (gv_ok (gv x) I1) as (_ & I2 & B1 & B2). rewrite <- (gm_id_l (gv (gv x))), <- A1, gm_assoc, B1, gm_id_r by auto. reflexivity.
  Qed.

  Lemma fg_at_ok (d : A) f x : zlen f = N -> in_group G x -> fg_at index f x = Ret (znth f (index x) d).
  Proof. intros L I. unfold fg_at. apply rd_ok. destruct (index_in G index HI x I). lia. Qed.

  Lemma left_ok (d : A) f t : zlen f = N -> in_group G t -> exists h, fg_left G index f t = Ret h /\ zlen h = N /\ forall x, in_group G x -> znth h (index (gm t x)) d = znth f (index x) d.
  Proof.
    intros L It. destruct (gv_ok t It) as (_ & Iv & V1 & V2). apply (scatter_ok G index d HG HI f _ (gm t) (gm (gv t))); auto.
    - intros x Ix. apply gm_ok; auto.
    - intros x Ix. destruct (gm_ok (gv t) x Iv Ix) as (_ & I1). split; auto. rewrite <- !gm_assoc, V1, V2, gm_id_l by auto. auto.
  Qed.
  Lemma right_ok (d : A) f t : zlen f = N -> in_group G t -> exists h, fg_right G index f t = Ret h /\ zlen h = N /\ forall x, in_group G x -> znth h (index (gm x t)) d = znth f (index x) d.
  Proof.
    intros L It. destruct (gv_ok t It) as (_ & Iv & V1 & V2). apply (scatter_ok G index d HG HI f _ (fun x => gm x t) (fun x => gm x (gv t))); auto.
    - intros x Ix. apply gm_ok; auto.
    - intros x Ix. destruct (gm_ok x (gv t) Ix Iv) as (_ & I1). split; auto. rewrite !gm_assoc, V1, V2, gm_id_r by auto. auto.
  Qed.
  Lemma inv_ok (d : A) f : zlen f = N -> exists h, fg_inv G index f = Ret h /\ zlen h = N /\ forall x, in_group G x -> znth h (index (gv x)) d = znth f (index x) d.
  Proof.
    intros L. apply (scatter_ok G index d HG HI f _ gv gv); auto.
    - intros x Ix. destruct (gv_ok x Ix) as (A1 & A2 & _). auto.
    - intros x Ix. destruct (gv_ok x Ix) as (_ & A2 & _). rewrite gv_gv by auto. auto.
  Qed.

  (* statements *)
  Lemma left_statement f t : zlen f = N -> in_group G t -> exists h : list A, fg_left G index f t = Ret h /\ zlen h = N /\ forall x y, in_group G x -> g_mul G t x = Ret y -> fg_at index h y = fg_at index f x /\ exists v, fg_at index f x = Ret v.
  Proof.
    intros L It. assert (exists d : A, True) as (d & _). { pose proof (gr_size G HG). destruct f as [|d f]; [change (zlen (@nil A)) with 0 in L; lia|eauto]. } destruct (left_ok d f t L It) as (h & E1 & E2 & E3). exists h. split; [auto|]. split; [auto|]. intros x y Ix Ey. destruct (gm_ok t x It Ix) as (K & Ik). assert (y = gm t x) by congruence. subst y.
    rewrite !(fg_at_ok d) by auto. rewrite E3 by auto. eauto.
  Qed.
  Lemma right_statement f t : zlen f = N -> in_group G t -> exists h : list A, fg_right G index f t = Ret h /\ zlen h = N /\ forall x y, in_group G x -> g_mul G x t = Ret y -> fg_at index h y = fg_at index f x /\ exists v, fg_at index f x = Ret v.
  Proof.
    intros L It. assert (exists d : A, True) as (d & _). { pose proof (gr_size G HG). destruct f as [|d f]; [change (zlen (@nil A)) with 0 in L; lia|eauto]. } destruct (right_ok d f t L It) as (h & E1 & E2 & E3). exists h. split; [auto|]. split; [auto|]. intros x y Ix Ey. destruct (gm_ok x t Ix It) as (K & Ik). assert (y = gm x t) by congruence. subst y.
    rewrite !(fg_at_ok d) by auto. rewrite E3 by auto. eauto.
  Qed.
  Lemma inv_statement f : zlen f = N -> exists h : list A, fg_inv G index f = Ret h /\ zlen h = N /\ forall x y, in_group G x -> g_inverse G x = Ret y -> fg_at index h y = fg_at index f x /\ exists v, fg_at index f x = Ret v.
  Proof.
    intros L. assert (exists d : A, True) as (d & _). { pose proof (gr_size G HG). destruct f as [|d f]; [change (zlen (@nil A)) with 0 in L; lia|eauto]. } destruct (inv_ok d f L) as (h & E1 & E2 & E3). exists h. split; [auto|]. split; [auto|]. intros x y Ix Ey. destruct (gv_ok x Ix) as (K & Ik & _). assert (y = gv x) by congruence. subst y.
    rewrite !(fg_at_ok d) by auto. rewrite E3 by auto. eauto.
  Qed.
End Translate.

(* ---- the matrix product and the conjugate transpose ---- *)
Lemma zfor_append {A} lo n (g : Z -> outcome A) (h : Z -> A) (v : list A) : 0 <= n -> (forall i, lo <= i < lo + n -> g i = Ret (h i)) ->
  zfor lo (lo + n) (fun i w => s <- g i ;; Ret (w ++ [s])) v = Ret (v ++ map h (zrange lo (lo + n))).
Proof.
  intros Hn Hg. set (body := fun i w => _). assert (forall k, 0 <= k -> k <= n -> zfor lo (lo + k) body v = Ret (v ++ map h (zrange lo (lo + k)))) as T; [|apply T; lia].
  intros k Hk. pattern k. apply natlike_ind; auto.
  - intros _. rewrite zfor_nil, zrange_nil by lia. cbn [map]. rewrite app_nil_r. reflexivity.
  - intros x Hx IH Hn'. replace (lo + Z.succ x) with (lo + x + 1) by lia. rewrite zfor_snoc, IH by lia. cbn [bind]. unfold body. rewrite Hg by lia. cbn [bind]. rewrite zrange_snoc, map_app, app_assoc by lia. reflexivity.
Qed.

Lemma zfor_append2 {A} n m (g : Z -> Z -> outcome A) (h : Z -> Z -> A) : 0 <= n -> 0 <= m -> (forall i j, 0 <= i < n -> 0 <= j < m -> g i j = Ret (h i j)) ->
  exists v, zfor 0 n (fun i v => zfor 0 m (fun j w => s <- g i j ;; Ret (w ++ [s])) v) [] = Ret v /\ zlen v = n * m /\ forall i j d, 0 <= i < n -> 0 <= j < m -> znth v (i * m + j) d = h i j.
Proof.
  intros Hn Hm Hg. destruct (zfor_inv (fun k v => zlen v = k * m /\ forall i j d, 0 <= i < k -> 0 <= j < m -> znth v (i * m + j) d = h i j) 0 n (fun i v => zfor 0 m (fun j w => s <- g i j ;; Ret (w ++ [s])) v) []) as (v & A1 & A2 & A3); [lia|split; [reflexivity|intros; lia]| |exists v; auto].
  intros i v Hi (L & Q). pose proof (zfor_append 0 m (g i) (h i) v Hm) as Z0. rewrite Z.add_0_l in Z0. rewrite Z0 by (intros; apply Hg; lia). eexists. split; [reflexivity|]. split; [rewrite zlen_app, zlen_map, zlen_zrange, L; lia|].
  intros i' j d Hi' Hj. rewrite znth_app by nia. rewrite L. destruct (Z.ltb_spec (i' * m + j) (i * m)).
  - apply Q; auto. nia.
  - assert (i' = i) by nia. subst i'. replace (i * m + j - i * m) with j by lia. rewrite (znth_map _ _ _ 0) by (rewrite zlen_zrange; lia). rewrite znth_zrange by lia. reflexivity.
Qed.

Lemma zfor_csum n (g : Z -> outcome (R * R)) (h : Z -> R * R) (body : Z -> R * R -> outcome (R * R)) : 0 <= n -> (forall k s, 0 <= k < n -> body k s = Ret (cadd s (h k))) -> zfor 0 n body cx0 = Ret (csum (upto n) h).
Proof.
  intros Hn Hb. assert (forall k, 0 <= k -> k <= n -> zfor 0 k body cx0 = Ret (csum (upto k) h)) as T; [|apply T; lia]. intros k Hk. pattern k. apply natlike_ind; auto.
  intros x Hx IH Hx'. unfold Z.succ. rewrite zfor_snoc, IH by lia. cbn [bind]. rewrite Hb by lia. rewrite upto_snoc, csum_app, csum_cons, csum_nil by lia. f_equal. ring.
Qed.

Lemma t_prod_ok d x y : 1 <= d -> mat_dims d x -> mat_dims d y -> exists z, t_prod x y = Ret z /\ zlen (t_v z) = d * d /\
  forall p q, 0 <= p < d -> 0 <= q < d -> entry d z p q = csum (upto d) (fun k => cmul (entry d x p k) (entry d y k q)).
Proof.
  intros Hd (Dx & Lx) (Dy & Ly). change (zlen (t_v x) = d * d) in Lx. change (zlen (t_v y) = d * d) in Ly. assert (t_rows x = d /\ t_inner_l x = d) as (R1 & R2) by (unfold t_rows, t_inner_l; destruct Dx as [-> | (-> & ->)]; auto). assert (t_cols y = d /\ t_inner_r y = d) as (C1 & C2) by (unfold t_cols, t_inner_r; destruct Dy as [-> | (-> & ->)]; auto).
  unfold t_prod. rewrite R1, R2, C1, C2, Z.eqb_refl. cbn [assert_ bind].
  destruct (zfor_append2 d d (fun i j => zfor 0 d (fun k s => a <- rd (t_v x) (i * d + k) ;; b <- rd (t_v y) (k * d + j) ;; Ret (cadd s (cmul a b))) cx0) (fun p q => csum (upto d) (fun k => cmul (entry d x p k) (entry d y k q)))) as (v & E1 & E2 & E3); [lia|lia| |].
  - intros i j Hi Hj. apply (zfor_csum d (fun _ => UB)); [lia|]. intros k s Hk. rewrite (rd_ok (t_v x) _ cx0), (rd_ok (t_v y) _ cx0) by nia. reflexivity.
  - rewrite E1. cbn [bind]. eexists. split; [reflexivity|]. cbn [t_v]. split; [auto|]. intros p q Hp Hq. unfold entry at 1. cbn [t_v]. apply E3; auto.
Qed.

Lemma t_herm_ok d x : 1 <= d -> t_dims x = [d; d] -> zlen (t_v x) = d * d -> exists z, t_herm x = Ret z /\ zlen (t_v z) = d * d /\ forall p q, 0 <= p < d -> 0 <= q < d -> entry d z p q = cconj (entry d x q p).
Proof.
  intros Hd Dx Lx. unfold t_herm. rewrite Dx.
  destruct (zfor_append2 d d (fun i j => c <- rd (t_v x) (j * d + i) ;; Ret (cconj c)) (fun p q => cconj (entry d x q p))) as (v & E1 & E2 & E3); [lia|lia| |].
  - intros i j Hi Hj. rewrite (rd_ok (t_v x) _ cx0) by nia. reflexivity.
  - assert (zfor 0 d (fun i v => zfor 0 d (fun j v0 => c <- rd (t_v x) (j * d + i) ;; Ret (v0 ++ [cconj c])) v) [] = Ret v) as ->.
    { rewrite <- E1. unfold zfor at 1 3. apply foldM_ext. intros i s Hi. unfold zfor. apply foldM_ext. intros j s' Hj. destruct (rd (t_v x) (j * d + i)); reflexivity. }
    cbn [bind]. eexists. split; [reflexivity|]. cbn [t_v]. split; [auto|]. intros p q Hp Hq. unfold entry at 1. cbn [t_v]. apply E3; auto.
Qed.

Lemma entry_ext d x y : 1 <= d -> zlen (t_v x) = d * d -> zlen (t_v y) = d * d -> (forall p q, 0 <= p < d -> 0 <= q < d -> entry d x p q = entry d y p q) -> t_v x = t_v y.
Proof.
  intros Hd Lx Ly H. apply (list_ext _ _ cx0); [congruence|]. intros e He. specialize (H (e / d) (e mod d)). unfold entry in H. pose proof (Z.div_mod e d ltac:(lia)) as DM. pose proof (Z.mod_pos_bound e d ltac:(lia)). replace (e / d * d + e mod d) with e in H by lia. apply H; [|auto]. split; [apply Z.div_pos; lia|apply Z.div_lt_upper_bound; lia].
Qed.

Section Transforms.
  Context {E : Type} (G : gops E) (index : E -> Z).
  Hypothesis HG : is_group G.
  Hypothesis HI : index_of G index.
  Notation N := (g_size G).
  Variables (nirr : Z) (irrep : Z -> outcome girr).
  Hypothesis Hn : 0 <= nirr.
  Hypothesis Hr : forall i, 0 <= i < nirr -> exists r, irrep i = Ret r /\ unitary_rep G index r /\ forall j, 0 <= j < N -> mat_dims (i_dim r) (i_at r j).

  Lemma reps : exists rho : Z -> girr, forall i, 0 <= i < nirr -> irrep i = Ret (rho i) /\ unitary_rep G index (rho i) /\ square N (rho i) /\ forall j, 0 <= j < N -> mat_dims (i_dim (rho i)) (i_at (rho i) j).
  Proof.
    exists (fun i => match irrep i with Ret r => r | _ => mkI 0 (fun _ => mkT [] []) end). intros i Hi. destruct (Hr i Hi) as (r & -> & U & D). split; auto. split; auto. split; auto. apply U.
  Qed.

  (* a sum over element numbers, reindexed by a bijection of the group *)
  Lemma sum_reindex (mv gi : E -> E) (g : Z -> R * R) (g' : Z -> R * R) : (forall x, in_group G x -> in_group G (mv x)) -> (forall x, in_group G x -> gi (mv x) = x) ->
    (forall x, in_group G x -> g' (index x) = g (index (mv x))) -> csum (upto N) g' = csum (upto N) g.
  Proof.
    intros M1 M2 H. set (k := fun j => match g_element G j with Ret x => index (mv x) | _ => 0 end). rewrite <- (csum_reindex (upto N) k g).
    - apply csum_ext. intros j Hj. apply in_upto in Hj. destruct (element_in G index HG HI j Hj) as (x & Ex & Ix & Xj). unfold k. rewrite Ex, <- H by auto. congruence.
    - apply NoDup_upto.
    - intros j Hj. apply in_upto in Hj. apply in_upto. destruct (element_in G index HG HI j Hj) as (x & Ex & Ix & Xj). unfold k. rewrite Ex. apply (index_in G index HI). auto.
    - intros j j' Hj Hj'. apply in_upto in Hj, Hj'. destruct (element_in G index HG HI j Hj) as (x & Ex & Ix & Xj). destruct (element_in G index HG HI j' Hj') as (y & Ey & Iy & Yj). unfold k. rewrite Ex, Ey. intros K. apply (index_inj G index HI) in K; auto. assert (x = y) by (rewrite <- (M2 x Ix), <- (M2 y Iy); congruence). congruence.
  Qed.

  Lemma part_entry rho f i P : is_part4 N rho f i P -> forall p q, 0 <= p < dd rho i -> 0 <= q < dd rho i -> entry (dd rho i) P p q = csum (upto N) (fun j => cmul (entry (dd rho i) (i_at (rho i) j) p q) (znth f j cx0)).
  Proof. intros (_ & _ & Q) p q Hp Hq. unfold entry. unfold znth at 1 in Q. rewrite Q by nia. reflexivity. Qed.

  (* building the list of transformed parts *)
  Lemma collect (g : Z -> outcome ctensor) (h : Z -> ctensor) : (forall i, 0 <= i < nirr -> g i = Ret (h i)) -> zfor 0 nirr (fun i q => M <- g i ;; Ret (q ++ [M])) [] = Ret (map h (zrange 0 nirr)).
  Proof. intros H. apply (zfor_append 0 nirr g h []); auto. Qed.

  Lemma left_transform f t : zlen f = N -> in_group G t -> exists parts h parts' q, fourier N nirr irrep f = Ret parts /\ fg_left G index f t = Ret h /\ fourier N nirr irrep h = Ret parts' /\
    fr_left nirr irrep (index t) parts = Ret q /\ map t_v q = map t_v parts'.
  Proof.
    intros L It. pose proof (gr_size G HG) as HN. destruct reps as (rho & R). assert (forall i, 0 <= i < nirr -> irrep i = Ret (rho i) /\ square N (rho i)) as Hs by (intros i Hi; destruct (R i Hi) as (A1 & _ & A3 & _); auto).
    destruct (fourier_ok N nirr irrep rho HN Hn Hs f L) as (parts & F1 & F2 & F3). destruct (left_ok G index HG HI cx0 f t L It) as (h & H1 & H2 & H3). destruct (fourier_ok N nirr irrep rho HN Hn Hs h H2) as (parts' & F1' & F2' & F3').
    exists parts, h, parts'. set (d0 := mkT [] []). destruct (index_in G index HI t It) as (Bt & _).
    assert (forall i, 0 <= i < nirr -> exists z, t_prod (i_at (rho i) (index t)) (znth parts i d0) = Ret z /\ t_v z = t_v (znth parts' i d0)) as T.
    { intros i Hi. destruct (R i Hi) as (_ & U & Sq & D). pose proof (proj1 Sq) as Dp. destruct (F3 i d0 Hi) as (D1 & D2 & D3). destruct (F3' i d0 Hi) as (D1' & D2' & D3').
      destruct (t_prod_ok (i_dim (rho i)) (i_at (rho i) (index t)) (znth parts i d0)) as (z & Z1 & Z2 & Z3); auto; [split; [left; exact D1|exact D2]|]. exists z. split; [auto|]. apply (entry_ext (i_dim (rho i))); auto. intros p q Hp Hq. rewrite Z3 by auto.
      change (i_dim (rho i)) with (dd rho i) in *. rewrite (part_entry rho h i _ (F3' i d0 Hi)) by auto. rewrite (csum_ext _ _ (fun k => csum (upto N) (fun j => cmul (cmul (entry (dd rho i) (i_at (rho i) (index t)) p k) (entry (dd rho i) (i_at (rho i) j) k q)) (znth f j cx0)))).
      2: { intros k Hk. apply in_upto in Hk. rewrite (part_entry rho f i _ (F3 i d0 Hi)) by auto. rewrite <- csum_scal. apply csum_ext. intros; ring. }
      rewrite csum_swap. apply (sum_reindex (gm G t) (gm G (gv G t))).
      - intros x Ix. apply gm_ok; auto.
      - intros x Ix. destruct (gv_ok G HG t It) as (_ & Iv & V1 & V2). rewrite <- gm_assoc, V2 by auto. apply gm_id_l; auto.
      - intros x Ix. destruct (gm_ok G HG t x It Ix) as (K1 & K2). rewrite csum_scal_r. rewrite H3 by auto. f_equal. symmetry. apply U; auto. }
    exists (map (fun i => match t_prod (i_at (rho i) (index t)) (znth parts i d0) with Ret z => z | _ => d0 end) (zrange 0 nirr)). split; [auto|]. split; [auto|]. split; [auto|]. split.
    - unfold fr_left. rewrite <- (collect (fun i => r <- irrep i ;; P <- rd parts i ;; t_prod (i_at r (index t)) P)).
      + unfold zfor. apply foldM_ext. intros i s _. destruct (irrep i); try reflexivity. cbn [bind]. destruct (rd parts i); reflexivity.
      + intros i Hi. destruct (R i Hi) as (-> & _). cbn [bind]. rewrite (rd_ok parts i d0) by lia. cbn [bind]. destruct (T i Hi) as (z & -> & _). reflexivity.
    - rewrite map_map. rewrite <- (map_znth_zrange parts' d0), map_map, F2'. apply map_ext_in. intros i Hi. apply in_zrange in Hi. destruct (T i Hi) as (z & -> & Ez). exact Ez.
  Qed.

  Lemma right_transform f t : zlen f = N -> in_group G t -> exists parts h parts' q, fourier N nirr irrep f = Ret parts /\ fg_right G index f t = Ret h /\ fourier N nirr irrep h = Ret parts' /\
    fr_right nirr irrep (index t) parts = Ret q /\ map t_v q = map t_v parts'.
  Proof.
    intros L It. pose proof (gr_size G HG) as HN. destruct reps as (rho & R). assert (forall i, 0 <= i < nirr -> irrep i = Ret (rho i) /\ square N (rho i)) as Hs by (intros i Hi; destruct (R i Hi) as (A1 & _ & A3 & _); auto).
    destruct (fourier_ok N nirr irrep rho HN Hn Hs f L) as (parts & F1 & F2 & F3). destruct (right_ok G index HG HI cx0 f t L It) as (h & H1 & H2 & H3). destruct (fourier_ok N nirr irrep rho HN Hn Hs h H2) as (parts' & F1' & F2' & F3').
    exists parts, h, parts'. set (d0 := mkT [] []). destruct (index_in G index HI t It) as (Bt & _).
    assert (forall i, 0 <= i < nirr -> exists z, t_prod (znth parts i d0) (i_at (rho i) (index t)) = Ret z /\ t_v z = t_v (znth parts' i d0)) as T.
    { intros i Hi. destruct (R i Hi) as (_ & U & Sq & D). pose proof (proj1 Sq) as Dp. destruct (F3 i d0 Hi) as (D1 & D2 & D3). destruct (F3' i d0 Hi) as (D1' & D2' & D3').
      destruct (t_prod_ok (i_dim (rho i)) (znth parts i d0) (i_at (rho i) (index t))) as (z & Z1 & Z2 & Z3); auto; [split; [left; exact D1|exact D2]|]. exists z. split; [auto|]. apply (entry_ext (i_dim (rho i))); auto. intros p q Hp Hq. rewrite Z3 by auto.
      change (i_dim (rho i)) with (dd rho i) in *. rewrite (part_entry rho h i _ (F3' i d0 Hi)) by auto. rewrite (csum_ext _ _ (fun k => csum (upto N) (fun j => cmul (cmul (entry (dd rho i) (i_at (rho i) j) p k) (entry (dd rho i) (i_at (rho i) (index t)) k q)) (znth f j cx0)))).
      2: { intros k Hk. apply in_upto in Hk. rewrite (part_entry rho f i _ (F3 i d0 Hi)) by auto. rewrite <- csum_scal_r. apply csum_ext. intros; ring. }
      rewrite csum_swap. apply (sum_reindex (fun x => gm G x t) (fun x => gm G x (gv G t))).
      - intros x Ix. apply gm_ok; auto.
      - intros x Ix. destruct (gv_ok G HG t It) as (_ & Iv & V1 & V2). rewrite gm_assoc, V1 by auto. apply gm_id_r; auto.
      - intros x Ix. destruct (gm_ok G HG x t Ix It) as (K1 & K2). rewrite csum_scal_r. rewrite H3 by auto. f_equal. symmetry. apply U; auto. }
    exists (map (fun i => match t_prod (znth parts i d0) (i_at (rho i) (index t)) with Ret z => z | _ => d0 end) (zrange 0 nirr)). split; [auto|]. split; [auto|]. split; [auto|]. split.
    - unfold fr_right. rewrite <- (collect (fun i => r <- irrep i ;; P <- rd parts i ;; t_prod P (i_at r (index t)))).
      + unfold zfor. apply foldM_ext. intros i s _. destruct (irrep i); try reflexivity. cbn [bind]. destruct (rd parts i); reflexivity.
      + intros i Hi. destruct (R i Hi) as (-> & _). cbn [bind]. rewrite (rd_ok parts i d0) by lia. cbn [bind]. destruct (T i Hi) as (z & -> & _). reflexivity.
    - rewrite map_map. rewrite <- (map_znth_zrange parts' d0), map_map, F2'. apply map_ext_in. intros i Hi. apply in_zrange in Hi. destruct (T i Hi) as (z & -> & Ez). exact Ez.
  Qed.

  (* inv(): for real functions *)
  Lemma inv_transform f : zlen f = N -> (forall v, In v f -> snd v = 0%R) -> exists parts h parts' q, fourier N nirr irrep f = Ret parts /\ fg_inv G index f = Ret h /\ fourier N nirr irrep h = Ret parts' /\
    fr_inv nirr parts = Ret q /\ map t_v q = map t_v parts'.
  Proof.
    intros L Real. pose proof (gr_size G HG) as HN. destruct reps as (rho & R). assert (forall i, 0 <= i < nirr -> irrep i = Ret (rho i) /\ square N (rho i)) as Hs by (intros i Hi; destruct (R i Hi) as (A1 & _ & A3 & _); auto).
    destruct (fourier_ok N nirr irrep rho HN Hn Hs f L) as (parts & F1 & F2 & F3). destruct (inv_ok G index HG HI cx0 f L) as (h & H1 & H2 & H3). destruct (fourier_ok N nirr irrep rho HN Hn Hs h H2) as (parts' & F1' & F2' & F3').
    exists parts, h, parts'. set (d0 := mkT [] []).
    assert (forall j, 0 <= j < N -> cconj (znth f j cx0) = znth f j cx0) as Rf. { intros j Hj. specialize (Real (znth f j cx0) (znth_In f j cx0 ltac:(lia))). destruct (znth f j cx0) as [a b]. cbn in *. subst b. apply cx_eq; cbn; ring. }
    assert (forall i, 0 <= i < nirr -> exists z, t_herm (znth parts i d0) = Ret z /\ t_v z = t_v (znth parts' i d0)) as T.
    { intros i Hi. destruct (R i Hi) as (_ & U & Sq & D). pose proof (proj1 Sq) as Dp. destruct (F3 i d0 Hi) as (D1 & D2 & D3). destruct (F3' i d0 Hi) as (D1' & D2' & D3').
      destruct (t_herm_ok (i_dim (rho i)) (znth parts i d0)) as (z & Z1 & Z2 & Z3); auto. exists z. split; [auto|]. apply (entry_ext (i_dim (rho i))); auto. intros p q Hp Hq. rewrite Z3 by auto.
      change (i_dim (rho i)) with (dd rho i) in *. rewrite (part_entry rho h i _ (F3' i d0 Hi)), (part_entry rho f i _ (F3 i d0 Hi)) by auto. rewrite <- csum_conj. apply (sum_reindex (gv G) (gv G)).
      - intros x Ix. apply gv_ok; auto.
      - intros x Ix. apply gv_gv; auto.
      - intros x Ix. destruct (gv_ok G HG x Ix) as (K1 & K2 & _). rewrite H3 by auto. destruct (index_in G index HI x Ix) as (Bx & _). rewrite cconj_mul, Rf by auto. f_equal. symmetry. unfold dd in *. apply (rep_inverse G index HG (rho i) U x (gv G x)); auto. }
    exists (map (fun i => match t_herm (znth parts i d0) with Ret z => z | _ => d0 end) (zrange 0 nirr)). split; [auto|]. split; [auto|]. split; [auto|]. split.
    - unfold fr_inv. rewrite <- (collect (fun i => P <- rd parts i ;; t_herm P)).
      + unfold zfor. apply foldM_ext. intros i s _. destruct (rd parts i); reflexivity.
      + intros i Hi. rewrite (rd_ok parts i d0) by lia. cbn [bind]. destruct (T i Hi) as (z & -> & _). reflexivity.
    - rewrite map_map. rewrite <- (map_znth_zrange parts' d0), map_map, F2'. apply map_ext_in. intros i Hi. apply in_zrange in Hi. destruct (T i Hi) as (z & -> & Ez). exact Ez.
  Qed.
End Transforms.

(* ---- the three classes ---- *)
Lemma cyc_dims n k j : mat_dims 1 (i_at (cyc_irrep n k) j).
Proof. split; [right; auto|reflexivity]. Qed.

Lemma dih_dims n k j : 1 <= n -> Z.even n = false -> 0 <= k -> 0 <= j -> mat_dims (i_dim (dih_irrep n k)) (i_at (dih_irrep n k) j).
Proof.
  intros Hn Ev Hk Hj. cbn [dih_irrep i_dim i_at]. unfold dih_dim, dih_at. rewrite !rem2_even, Ev by lia. cbn [andb]. change (2 * (1 + 0)) with 2. destruct (Z.eqb_spec k 0) as [-> | ]; [split; [right; auto|reflexivity]|]. destruct (Z.eqb_spec k 1) as [-> | ]; [split; [right; auto|reflexivity]|].
  destruct (Z.ltb_spec k 2); [lia|]. destruct (j <? n); (split; [left; reflexivity|reflexivity]).
Qed.

Lemma dgood_odd n k : Z.even n = false -> 0 <= k < dih_nirreps n -> dgood n k.
Proof. intros Ev Hk. split; auto. intros (K & _). congruence. Qed.

Lemma cyc_reps n : 1 <= n -> forall i, 0 <= i < cyc_nirreps n -> exists r, Ret (cyc_irrep n i) = Ret r /\ unitary_rep (cyclic n) cyc_index r /\ forall j, 0 <= j < g_size (cyclic n) -> mat_dims (i_dim r) (i_at r j).
Proof. intros Hn i Hi. exists (cyc_irrep n i). split; auto. split; [apply cyc_unitary; auto|]. intros. apply cyc_dims. Qed.
Lemma dih_reps n : 1 <= n -> Z.even n = false -> forall i, 0 <= i < dih_nirreps n -> exists r, Ret (dih_irrep n i) = Ret r /\ unitary_rep (dihedral n) (dih_index n) r /\ forall j, 0 <= j < g_size (dihedral n) -> mat_dims (i_dim r) (i_at r j).
Proof. intros Hn Ev i Hi. exists (dih_irrep n i). split; auto. split; [apply dih_unitary; [auto|apply dgood_odd; auto]|]. intros. apply dih_dims; auto; lia. Qed.

Lemma dih_nirr_nonneg n : 1 <= n -> 0 <= dih_nirreps n.
Proof. intros Hn. rewrite nirr_ok by auto. pose proof (Z.div_pos n 2). destruct (Z.even n); lia. Qed.

(* FourierOnGroup::inv conjugates: on the group with one element and f = i it gives -i *)
Lemma inv_refuted : exists f parts h parts' q, fourier 1 (cyc_nirreps 1) (fun k => Ret (cyc_irrep 1 k)) f = Ret parts /\ fg_inv (cyclic 1) cyc_index f = Ret h /\ fourier 1 (cyc_nirreps 1) (fun k => Ret (cyc_irrep 1 k)) h = Ret parts' /\
  fr_inv (cyc_nirreps 1) parts = Ret q /\ map t_v q <> map t_v parts'.
Proof.
  assert (forall v, fourier 1 (cyc_nirreps 1) (fun k => Ret (cyc_irrep 1 k)) [v] = Ret [mkT [1; 1] [cadd cx0 (cmul (cos (2 * PI / 1 * 0 * 0), sin (2 * PI / 1 * 0 * 0))%R v)]]) as F by reflexivity.
  exists [(0, 1)%R]. eexists. exists [(0, 1)%R]. eexists. eexists. split; [apply F|]. split; [reflexivity|]. split; [apply F|]. split; [reflexivity|]. replace (2 * PI / 1 * 0 * 0)%R with 0%R by (field; lra). rewrite cos_0, sin_0. cbn [map app t_v]. intros K. apply (f_equal (fun l => snd (hd cx0 (hd [] l)))) in K. cbn in K. lra.
Qed.

(* product irreps *)
Lemma product_not_rep {E1 E2} (g1 : gops E1) (g2 : gops E2) index r1 r2 : 1 <= i_dim r1 -> 1 <= i_dim r2 -> ~ unitary_rep (product g1 g2) index (pr_irrep2 r1 r2).
Proof.
  intros D1 D2 (_ & _ & U & _). cbn [pr_irrep2 i_dim i_at] in U. specialize (U 0 0 ltac:(nia) ltac:(nia)). cbn [Z.eqb] in U. assert (1 <= i_dim r1 * i_dim r2) as P by nia. destruct (t_fill_ok cx0 (i_dim r1 * i_dim r2) ltac:(nia)) as (_ & F). specialize (F 0 ltac:(nia)). unfold entry in U. rewrite Z.mul_0_l, Z.add_0_l in U. unfold znth in F. rewrite F in U. unfold cx0, cx1 in U. injection U as U. lra.
Qed.

Lemma product_cyclic n1 n2 k1 k2 j1 j2 : 1 <= n1 -> 1 <= n2 ->
  entry 1 (i_at (pr_irrep2 (cyc_irrep n1 k1) (cyc_irrep n2 k2)) (j1 * n2 + j2)) 0 0 = cx0 /\
  cmul (entry 1 (i_at (cyc_irrep n1 k1) j1) 0 0) (entry 1 (i_at (cyc_irrep n2 k2) j2) 0 0) <> cx0.
Proof.
  intros H1 H2. split; [reflexivity|]. rewrite !cyc_at. cbn [entry t_v Z.mul Z.add Z.to_nat nth]. change (cmul (wn n1 (k1 * j1)) (wn n2 (k2 * j2)) <> cx0). intros K.
  assert (cmul (cmul (wn n1 (k1 * j1)) (wn n2 (k2 * j2))) (cmul (wn n1 (- (k1 * j1))) (wn n2 (- (k2 * j2)))) = cx1) as Q.
  { transitivity (cmul (cmul (wn n1 (k1 * j1)) (wn n1 (- (k1 * j1)))) (cmul (wn n2 (k2 * j2)) (wn n2 (- (k2 * j2))))); [ring|]. rewrite <- !wn_add, !Z.add_opp_diag_r, !wn_0. ring. }
  rewrite K in Q. assert (cmul cx0 (cmul (wn n1 (- (k1 * j1))) (wn n2 (- (k2 * j2)))) = cx0) by ring. rewrite H in Q. unfold cx0, cx1 in Q. injection Q as Q. lra.
Qed.

(* the transform of the cyclic group of one variable, spelled out *)
Lemma cyc_forward n f : 1 <= n -> zlen f = n -> exists parts, fourier n (cyc_nirreps n) (fun k => Ret (cyc_irrep n k)) f = Ret parts /\ zlen parts = n /\
  forall k, 0 <= k < n -> t_v (nth (Z.to_nat k) parts (mkT [] [])) = [csum (upto n) (fun j => cmul (nth (Z.to_nat j) f cx0) (cos (2 * PI * IZR (k * j) / IZR n), sin (2 * PI * IZR (k * j) / IZR n))%R)].
Proof.
  intros Hn L. destruct (forward_ok (cyclic n) cyc_index (cyclic_group n Hn) (cyc_nirreps n) (fun k => Ret (cyc_irrep n k)) (cyc_complete n Hn) f ltac:(unfold cyc_nirreps; lia) L) as (parts & A1 & A2 & A3). exists parts. split; [exact A1|]. split; [exact A2|]. intros k Hk.
  destruct (fourier_ok n (cyc_nirreps n) (fun k => Ret (cyc_irrep n k)) (cyc_irrep n) Hn ltac:(unfold cyc_nirreps; lia)) with (f := f) as (parts' & B1 & B2 & B3); [intros i Hi; split; [auto|apply (cyc_unitary n i Hn)]|exact L|]. assert (parts' = parts) by (cbn [cyclic g_size] in A1; congruence). subst parts'.
  destruct (A3 k (cyc_irrep n k) (mkT [] []) Hk eq_refl) as (_ & Q). specialize (Q 0 0 ltac:(cbn; lia) ltac:(cbn; lia)). destruct (B3 k (mkT [] []) Hk) as (_ & Lk & _). unfold znth in Q, Lk. set (P := nth (Z.to_nat k) parts (mkT [] [])) in *. change (dd (cyc_irrep n) k * dd (cyc_irrep n) k) with 1 in Lk. destruct (t_v P) as [|v [|w l]] eqn:EP; try (exfalso; unfold zlen in Lk; cbn in Lk; lia).
  unfold entry in Q. rewrite EP in Q. cbn [nth cyc_irrep i_dim Z.mul Z.add Z.to_nat] in Q. f_equal. etransitivity; [exact Q|]. apply csum_ext. intros j Hj. f_equal. cbn [cyc_irrep i_at t_v nth]. rewrite mult_IZR. f_equal; f_equal; field; apply not_0_IZR; lia.
Qed.
