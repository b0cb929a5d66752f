(* Properties C51-C57 and C72: cyclic, dihedral and product groups, their irreps, functions on them and the Fourier
   transform: groups/ and include/FunctionOnGroup.hpp. *)
From Coq Require Import ZArith List Bool Lia Reals.
From Verif Require Import Model_Base Model_Group Spec_Group.
From Verif Require Import Proof_Base Proof_Cx Proof_Group Proof_GroupRep Proof_GroupFour Proof_GroupFun.
Import ListNotations.
Open Scope Z_scope.

(* ---- C51 ---- *)
Theorem C51_cyclic_group : forall n, 1 <= n -> is_group (cyclic n) /\ index_of (cyclic n) cyc_index /\ g_size (cyclic n) = n.
Proof. intros n Hn. split; [exact (cyclic_group n Hn)|]. split; [exact (cyclic_index n)|reflexivity]. Qed.
Print Assumptions C51_cyclic_group.

(* it is the integers modulo n under addition *)
Theorem C51_cyclic_table : forall n i j x y, 1 <= n -> 0 <= i < n -> 0 <= j < n -> g_element (cyclic n) i = Ret x -> g_element (cyclic n) j = Ret y ->
  g_mul (cyclic n) x y = g_element (cyclic n) ((i + j) mod n) /\ g_inverse (cyclic n) x = g_element (cyclic n) ((- i) mod n).
Proof. exact cyclic_table. Qed.
Print Assumptions C51_cyclic_table.

(* elements of different cyclic groups cannot be multiplied *)
Theorem C51_mixed_aborts : forall n m x y, n <> m -> in_group (cyclic n) x -> in_group (cyclic m) y -> g_mul (cyclic n) x y = Abort.
Proof. exact cyclic_mixed. Qed.
Print Assumptions C51_mixed_aborts.

Example C51_example : in_group (cyclic 5) (mkC 5 3) /\ in_group (cyclic 5) (mkC 5 4) /\ g_mul (cyclic 5) (mkC 5 3) (mkC 5 4) = Ret (mkC 5 2) /\ in_group (cyclic 7) (mkC 7 4).
Proof. split; [exists 3; split; [cbn; lia|reflexivity]|]. split; [exists 4; split; [cbn; lia|reflexivity]|]. split; [reflexivity|]. exists 4; split; [cbn; lia|reflexivity]. Qed.

(* ---- C52 ---- *)
Theorem C52_dihedral_group : forall n, 1 <= n -> is_group (dihedral n) /\ index_of (dihedral n) (dih_index n) /\ index_of (dihedral n) d_index /\ g_size (dihedral n) = 2 * n.
Proof. intros n Hn. split; [exact (dihedral_group n Hn)|]. destruct (dihedral_index n) as (A & B). split; [exact A|]. split; [exact B|reflexivity]. Qed.
Print Assumptions C52_dihedral_group.

(* it acts on the corners of the regular n-gon: a product moves them as the two factors do one after the other *)
Theorem C52_acts_on_corners : forall n x y z v, 1 <= n -> in_group (dihedral n) x -> in_group (dihedral n) y -> g_mul (dihedral n) x y = Ret z -> corner n z v = corner n x (corner n y v).
Proof. exact dihedral_action. Qed.
Print Assumptions C52_acts_on_corners.

(* from the triangle on, different elements move the corners differently *)
Theorem C52_acts_faithfully : forall n x y, 3 <= n -> in_group (dihedral n) x -> in_group (dihedral n) y -> (forall v, 0 <= v < n -> corner n x v = corner n y v) -> x = y.
Proof. exact dihedral_faithful. Qed.
Print Assumptions C52_acts_faithfully.

(* r(i) and s() are the generators: ss = 1 and s r(i) s is the inverse of r(i) *)
Theorem C52_generators : forall n i, 2 <= n -> 0 <= i < n -> in_group (dihedral n) (dih_r n i) /\ in_group (dihedral n) (dih_s n) /\
  d_mul (dih_s n) (dih_s n) = Ret (g_identity (dihedral n)) /\ (u <- d_mul (dih_s n) (dih_r n i) ;; d_mul u (dih_s n)) = d_inverse (dih_r n i).
Proof. intros n i Hn Hi. split; [apply dihedral_r; lia|]. split; [apply dihedral_s; lia|]. exact (dihedral_relations n i Hn Hi). Qed.
Print Assumptions C52_generators.

(* r(i) does not reduce i: r(n) should be the identity and is not an element; looked up by index it is a reflection *)
Theorem C52_r_of_n_refuted : forall n, 1 <= n -> ~ in_group (dihedral n) (dih_r n n) /\ exists y, g_element (dihedral n) (dih_index n (dih_r n n)) = Ret y /\ d_s y = -1.
Proof. intros n Hn. split; [rewrite dihedral_r by lia; lia|exact (dihedral_r_refuted n Hn)]. Qed.
Print Assumptions C52_r_of_n_refuted.

(* s() is not an element of the dihedral group with n = 1 *)
Theorem C52_s_at_1_refuted : ~ in_group (dihedral 1) (dih_s 1).
Proof. rewrite dihedral_s by lia. lia. Qed.
Print Assumptions C52_s_at_1_refuted.

Theorem C52_mixed_aborts : forall n m x y, 1 <= n -> 1 <= m -> n <> m -> in_group (dihedral n) x -> in_group (dihedral m) y -> g_mul (dihedral n) x y = Abort.
Proof. exact dihedral_mixed. Qed.
Print Assumptions C52_mixed_aborts.

Example C52_example : in_group (dihedral 5) (mkD 5 3 (-1)) /\ in_group (dihedral 5) (mkD 5 4 1) /\ g_mul (dihedral 5) (mkD 5 3 (-1)) (mkD 5 4 1) = Ret (mkD 5 4 (-1)) /\ corner 5 (mkD 5 3 (-1)) 1 = 2 /\ in_group (dihedral 4) (mkD 4 0 (-1)).
Proof. split; [exists 8; split; [cbn; lia|reflexivity]|]. split; [exists 4; split; [cbn; lia|reflexivity]|]. split; [reflexivity|]. split; [reflexivity|]. exists 4; split; [cbn; lia|reflexivity]. Qed.

(* ---- C53 ---- *)
Theorem C53_product_group : forall E1 E2 (g1 : gops E1) (g2 : gops E2), is_group g1 -> is_group g2 ->
  is_group (product g1 g2) /\ g_size (product g1 g2) = g_size g1 * g_size g2 /\ forall x y, in_group (product g1 g2) (x, y) <-> in_group g1 x /\ in_group g2 y.
Proof. intros E1 E2 g1 g2 H1 H2. split; [exact (product_group g1 g2 H1 H2)|]. split; [reflexivity|exact (in_product g1 g2 H1 H2)]. Qed.
Print Assumptions C53_product_group.

(* every pair has exactly one number; product and inverse are componentwise *)
Theorem C53_pairs : forall E1 E2 (g1 : gops E1) (g2 : gops E2), is_group g1 -> is_group g2 ->
  (forall x y, in_group g1 x -> in_group g2 y -> exists i, 0 <= i < g_size g1 * g_size g2 /\ g_element (product g1 g2) i = Ret (x, y) /\
     forall j, 0 <= j < g_size g1 * g_size g2 -> g_element (product g1 g2) j = Ret (x, y) -> j = i) /\
  (forall x y x' y' a b, g_mul g1 x x' = Ret a -> g_mul g2 y y' = Ret b -> g_mul (product g1 g2) (x, y) (x', y') = Ret (a, b)) /\
  (forall x y a b, g_inverse g1 x = Ret a -> g_inverse g2 y = Ret b -> g_inverse (product g1 g2) (x, y) = Ret (a, b)).
Proof. exact @product_pairs. Qed.
Print Assumptions C53_pairs.

Theorem C53_cyclic_by_dihedral : forall n m, 1 <= n -> 1 <= m -> is_group (product (cyclic n) (dihedral m)) /\ g_size (product (cyclic n) (dihedral m)) = n * (2 * m).
Proof. intros n m Hn Hm. split; [apply product_group; [exact (cyclic_group n Hn)|exact (dihedral_group m Hm)]|reflexivity]. Qed.
Print Assumptions C53_cyclic_by_dihedral.

Example C53_example : is_group (cyclic 3) /\ is_group (dihedral 4) /\ g_element (product (cyclic 3) (dihedral 4)) 13 = Ret (mkC 3 1, mkD 4 1 (-1)).
Proof. split; [apply cyclic_group; lia|]. split; [apply dihedral_group; lia|]. reflexivity. Qed.

(* ---- C54 ---- *)
Theorem C54_cyclic_irreps : forall n k, 1 <= n -> unitary_rep (cyclic n) cyc_index (cyc_irrep n k) /\ i_dim (cyc_irrep n k) = 1.
Proof. intros n k Hn. split; [exact (cyc_unitary n k Hn)|reflexivity]. Qed.
Print Assumptions C54_cyclic_irreps.

Theorem C54_orthogonal : forall n k l, 1 <= n -> 0 <= k < n -> 0 <= l < n ->
  csum (upto n) (fun j => cmul (entry 1 (i_at (cyc_irrep n k) j) 0 0) (cconj (entry 1 (i_at (cyc_irrep n l) j) 0 0))) = if k =? l then creal (IZR n) else cx0.
Proof. exact cyc_orthogonal. Qed.
Print Assumptions C54_orthogonal.

Theorem C54_complete : forall n, 1 <= n -> complete_irreps (cyclic n) cyc_index (cyc_nirreps n) (fun k => Ret (cyc_irrep n k)).
Proof. exact cyc_complete. Qed.
Print Assumptions C54_complete.

(* the trivial irrep of a group of two elements and the other one *)
Example C54_example : entry 1 (i_at (cyc_irrep 2 0) 1) 0 0 = cx1 /\ entry 1 (i_at (cyc_irrep 2 1) 1) 0 0 = (-1, 0)%R.
Proof.
  unfold entry. cbn [cyc_irrep i_at t_v Z.mul Z.add Z.to_nat nth]. replace (2 * PI / 2 * 0 * 1)%R with 0%R by field. replace (2 * PI / 2 * 1 * 1)%R with PI by field. rewrite cos_0, sin_0, cos_PI, sin_PI. auto.
Qed.

(* ---- C55 ---- *)
(* every irrep is a unitary representation, except number 3 for even n *)
Theorem C55_dihedral_irreps : forall n k, 1 <= n -> 0 <= k < dih_nirreps n -> ~ (Z.even n = true /\ k = 3) -> unitary_rep (dihedral n) (dih_index n) (dih_irrep n k).
Proof. intros n k Hn Hk H3. exact (dih_unitary n k Hn (conj Hk H3)). Qed.
Print Assumptions C55_dihedral_irreps.

(* their characters are orthogonal, so they are irreducible and inequivalent *)
Theorem C55_orthogonal : forall n k l, 1 <= n -> 0 <= k < dih_nirreps n -> ~ (Z.even n = true /\ k = 3) -> 0 <= l < dih_nirreps n -> ~ (Z.even n = true /\ l = 3) ->
  csum (upto (2 * n)) (fun j => cmul (character (dih_irrep n k) j) (cconj (character (dih_irrep n l) j))) = if k =? l then creal (IZR (2 * n)) else cx0.
Proof. intros n k l Hn Hk Hk3 Hl Hl3. exact (dih_orthogonal n k l Hn (conj Hk Hk3) (conj Hl Hl3)). Qed.
Print Assumptions C55_orthogonal.

Theorem C55_squared_dimensions : forall n, 1 <= n -> fold_right Z.add 0 (map (fun k => i_dim (dih_irrep n k) * i_dim (dih_irrep n k)) (upto (dih_nirreps n))) = 2 * n.
Proof. exact dih_squares. Qed.
Print Assumptions C55_squared_dimensions.

Theorem C55_complete_for_odd_n : forall n, 1 <= n -> Z.even n = false -> complete_irreps (dihedral n) (dih_index n) (dih_nirreps n) (fun k => Ret (dih_irrep n k)).
Proof. exact dih_complete. Qed.
Print Assumptions C55_complete_for_odd_n.

(* for every even n, irrep 3 says dim() is 1 and returns 2 x 2 matrices *)
Theorem C55_third_irrep_refuted : forall n, 1 <= n -> Z.even n = true -> 0 <= 3 < dih_nirreps n /\ ~ unitary_rep (dihedral n) (dih_index n) (dih_irrep n 3) /\
  forall i, 0 <= i < 2 * n -> i_dim (dih_irrep n 3) = 1 /\ length (t_v (i_at (dih_irrep n 3) i)) = 4%nat.
Proof.
  intros n Hn Ev. destruct (dih_third n 0 Hn Ev ltac:(lia)) as (A & B & C). split; [lia|]. split; [|intros i Hi; destruct (dih_third n i Hn Ev ltac:(lia)) as (_ & B' & C'); auto].
  intros ((_ & S) & _). specialize (S 0 ltac:(cbn [dihedral g_size]; lia)). rewrite B, C in S. cbn in S. lia.
Qed.
Print Assumptions C55_third_irrep_refuted.

Example C55_example : dih_nirreps 5 = 4 /\ dih_nirreps 6 = 6 /\ i_dim (dih_irrep 5 2) = 2 /\ i_dim (dih_irrep 6 5) = 2 /\ i_dim (dih_irrep 6 2) = 1.
Proof. repeat split. Qed.

(* ---- C56 ---- *)
(* no irrep of a product group is a representation: the matrices are zero *)
Theorem C56_product_irreps_refuted : forall E1 E2 (g1 : gops E1) (g2 : gops E2) index r1 r2, 1 <= i_dim r1 -> 1 <= i_dim r2 -> ~ unitary_rep (product g1 g2) index (pr_irrep2 r1 r2).
Proof. exact @product_not_rep. Qed.
Print Assumptions C56_product_irreps_refuted.

(* for two cyclic groups the tensor product is a product of two roots of unity; the code returns 0 instead *)
Theorem C56_cyclic_refuted : forall n1 n2 k1 k2 j1 j2, 1 <= n1 -> 1 <= n2 ->
  entry 1 (i_at (pr_irrep2 (cyc_irrep n1 k1) (cyc_irrep n2 k2)) (j1 * n2 + j2)) 0 0 = cx0 /\
  cmul (entry 1 (i_at (cyc_irrep n1 k1) j1) 0 0) (entry 1 (i_at (cyc_irrep n2 k2) j2) 0 0) <> cx0.
Proof. exact product_cyclic. Qed.
Print Assumptions C56_cyclic_refuted.

Example C56_example : pr_irrep (fun k => Ret (cyc_irrep 3 k)) (fun k => Ret (cyc_irrep 4 k)) 4 7 = Ret (pr_irrep2 (cyc_irrep 3 1) (cyc_irrep 4 3)) /\ i_dim (pr_irrep2 (cyc_irrep 3 1) (cyc_irrep 4 3)) = 1.
Proof. split; reflexivity. Qed.

(* ---- C57 ---- *)
(* Fourier(f) is the sum of f(x) rho(x), and the inverse transform gives f back, for every group with a complete set of
   unitary irreps *)
Theorem C57_forward : forall E (G : gops E) index nirr irrep f, is_group G -> complete_irreps G index nirr irrep -> 0 <= nirr -> zlen f = g_size G ->
  exists parts, fourier (g_size G) nirr irrep f = Ret parts /\ zlen parts = nirr /\
    forall i r d, 0 <= i < nirr -> irrep i = Ret r -> let P := nth (Z.to_nat i) parts d in
      t_dims P = [i_dim r; i_dim r] /\ forall p q, 0 <= p < i_dim r -> 0 <= q < i_dim r ->
        entry (i_dim r) P p q = csum (upto (g_size G)) (fun j => cmul (nth (Z.to_nat j) f cx0) (entry (i_dim r) (i_at r j) p q)).
Proof. intros E G index nirr irrep f HG HC Hn Hf. exact (forward_ok G index HG nirr irrep HC f Hn Hf). Qed.
Print Assumptions C57_forward.

Theorem C57_inversion : forall E (G : gops E) index nirr irrep f, is_group G -> index_of G index -> complete_irreps G index nirr irrep -> 0 <= nirr -> zlen f = g_size G ->
  exists parts, fourier (g_size G) nirr irrep f = Ret parts /\ ifourier (g_size G) nirr irrep parts = Ret f.
Proof. intros E G index nirr irrep f HG HI HC Hn Hf. exact (inversion_ok G index HG HI nirr irrep HC f Hn Hf). Qed.
Print Assumptions C57_inversion.

(* the discrete Fourier transform, for every n *)
Theorem C57_cyclic : forall n f, 1 <= n -> zlen f = n -> exists parts, fourier n (cyc_nirreps n) (fun k => Ret (cyc_irrep n k)) f = Ret parts /\
  (forall k, 0 <= k < n -> t_v (nth (Z.to_nat k) parts (mkT [] [])) =
     [csum (upto n) (fun j => cmul (nth (Z.to_nat j) f cx0) (cos (2 * PI * IZR (k * j) / IZR n), sin (2 * PI * IZR (k * j) / IZR n))%R)]) /\
  ifourier n (cyc_nirreps n) (fun k => Ret (cyc_irrep n k)) parts = Ret f.
Proof.
  intros n f Hn L. destruct (cyc_forward n f Hn L) as (p & A & _ & B). destruct (inversion_ok (cyclic n) cyc_index (cyclic_group n Hn) (cyclic_index n) _ _ (cyc_complete n Hn) f ltac:(unfold cyc_nirreps; lia) L) as (p' & A' & C). exists p. split; [exact A|]. split; [exact B|]. cbn [cyclic g_size] in A', C. rewrite A in A'. injection A' as ->. exact C.
Qed.
Print Assumptions C57_cyclic.

Theorem C57_dihedral_odd : forall n f, 1 <= n -> Z.even n = false -> zlen f = 2 * n -> exists parts, fourier (2 * n) (dih_nirreps n) (fun k => Ret (dih_irrep n k)) f = Ret parts /\
  ifourier (2 * n) (dih_nirreps n) (fun k => Ret (dih_irrep n k)) parts = Ret f.
Proof. intros n f Hn Ev L. exact (inversion_ok (dihedral n) (dih_index n) (dihedral_group n Hn) (proj1 (dihedral_index n)) _ _ (dih_complete n Hn Ev) f (dih_nirr_nonneg n Hn) L). Qed.
Print Assumptions C57_dihedral_odd.

(* for even n the transform of every function stops at irrep 3 *)
Theorem C57_dihedral_even_refuted : forall n f, 1 <= n -> Z.even n = true -> zlen f = 2 * n -> fourier (2 * n) (dih_nirreps n) (fun k => Ret (dih_irrep n k)) f = Abort.
Proof. exact dih_even_aborts. Qed.
Print Assumptions C57_dihedral_even_refuted.

(* on a product group every function comes back as zero *)
Theorem C57_product_refuted : forall n1 n2 f, 1 <= n1 -> 1 <= n2 -> zlen f = n1 * n2 -> let irrep := pr_irrep (fun k => Ret (cyc_irrep n1 k)) (fun k => Ret (cyc_irrep n2 k)) n2 in
  exists parts, fourier (n1 * n2) (pr_nirreps n1 n2) irrep f = Ret parts /\ ifourier (n1 * n2) (pr_nirreps n1 n2) irrep parts = Ret (repeat cx0 (Z.to_nat (n1 * n2))).
Proof. intros n1 n2 f H1 H2 L irrep. apply product_fourier; try lia; try nia; auto; intros i Hi; eexists; split; try reflexivity; cbn; lia. Qed.
Print Assumptions C57_product_refuted.

Example C57_example : complete_irreps (cyclic 4) cyc_index 4 (fun k => Ret (cyc_irrep 4 k)) /\ complete_irreps (dihedral 3) (dih_index 3) 3 (fun k => Ret (dih_irrep 3 k)) /\ zlen [cx1; cx0; cx1; (2, 3)%R] = g_size (cyclic 4).
Proof. split; [apply (cyc_complete 4); lia|]. split; [apply (dih_complete 3); [lia|reflexivity]|reflexivity]. Qed.

(* ---- C72 ---- *)
Theorem C72_left_translate : forall E A (G : gops E) index (f : list A) t, is_group G -> index_of G index -> zlen f = g_size G -> in_group G t ->
  exists h, fg_left G index f t = Ret h /\ zlen h = g_size G /\ forall x y, in_group G x -> g_mul G t x = Ret y -> fg_at index h y = fg_at index f x /\ exists v, fg_at index f x = Ret v.
Proof. intros E A G index f t HG HI L It. exact (left_statement G index HG HI f t L It). Qed.
Print Assumptions C72_left_translate.

Theorem C72_right_translate : forall E A (G : gops E) index (f : list A) t, is_group G -> index_of G index -> zlen f = g_size G -> in_group G t ->
  exists h, fg_right G index f t = Ret h /\ zlen h = g_size G /\ forall x y, in_group G x -> g_mul G x t = Ret y -> fg_at index h y = fg_at index f x /\ exists v, fg_at index f x = Ret v.
Proof. intros E A G index f t HG HI L It. exact (right_statement G index HG HI f t L It). Qed.
Print Assumptions C72_right_translate.

Theorem C72_inverse : forall E A (G : gops E) index (f : list A), is_group G -> index_of G index -> zlen f = g_size G ->
  exists h, fg_inv G index f = Ret h /\ zlen h = g_size G /\ forall x y, in_group G x -> g_inverse G x = Ret y -> fg_at index h y = fg_at index f x /\ exists v, fg_at index f x = Ret v.
Proof. intros E A G index f HG HI L. exact (inv_statement G index HG HI f L). Qed.
Print Assumptions C72_inverse.

(* left(t) and right(t) of a transform are the transforms of the translates *)
Theorem C72_left_of_transform : forall E (G : gops E) index nirr irrep f t, is_group G -> index_of G index -> 0 <= nirr ->
  (forall i, 0 <= i < nirr -> exists r, irrep i = Ret r /\ unitary_rep G index r /\ forall j, 0 <= j < g_size G -> mat_dims (i_dim r) (i_at r j)) -> zlen f = g_size G -> in_group G t ->
  exists F h H Q, fourier (g_size G) nirr irrep f = Ret F /\ fg_left G index f t = Ret h /\ fourier (g_size G) nirr irrep h = Ret H /\ fr_left nirr irrep (index t) F = Ret Q /\ map t_v Q = map t_v H.
Proof. intros E G index nirr irrep f t HG HI Hn Hr L It. exact (left_transform G index HG HI nirr irrep Hn Hr f t L It). Qed.
Print Assumptions C72_left_of_transform.

Theorem C72_right_of_transform : forall E (G : gops E) index nirr irrep f t, is_group G -> index_of G index -> 0 <= nirr ->
  (forall i, 0 <= i < nirr -> exists r, irrep i = Ret r /\ unitary_rep G index r /\ forall j, 0 <= j < g_size G -> mat_dims (i_dim r) (i_at r j)) -> zlen f = g_size G -> in_group G t ->
  exists F h H Q, fourier (g_size G) nirr irrep f = Ret F /\ fg_right G index f t = Ret h /\ fourier (g_size G) nirr irrep h = Ret H /\ fr_right nirr irrep (index t) F = Ret Q /\ map t_v Q = map t_v H.
Proof. intros E G index nirr irrep f t HG HI Hn Hr L It. exact (right_transform G index HG HI nirr irrep Hn Hr f t L It). Qed.
Print Assumptions C72_right_of_transform.

(* the groups and irreps of the library that meet the hypothesis *)
Theorem C72_hypotheses_hold : forall n, 1 <= n ->
  (forall i, 0 <= i < cyc_nirreps n -> exists r, Ret (cyc_irrep n i) = Ret r /\ unitary_rep (cyclic n) cyc_index r /\ forall j, 0 <= j < g_size (cyclic n) -> mat_dims (i_dim r) (i_at r j)) /\
  (Z.even n = false -> forall i, 0 <= i < dih_nirreps n -> exists r, Ret (dih_irrep n i) = Ret r /\ unitary_rep (dihedral n) (dih_index n) r /\ forall j, 0 <= j < g_size (dihedral n) -> mat_dims (i_dim r) (i_at r j)).
Proof. intros n Hn. split; [exact (cyc_reps n Hn)|exact (dih_reps n Hn)]. Qed.
Print Assumptions C72_hypotheses_hold.

(* inv() of a transform is the transform of inv() when f is real *)
Theorem C72_inverse_of_transform : forall E (G : gops E) index nirr irrep f, is_group G -> index_of G index -> 0 <= nirr ->
  (forall i, 0 <= i < nirr -> exists r, irrep i = Ret r /\ unitary_rep G index r /\ forall j, 0 <= j < g_size G -> mat_dims (i_dim r) (i_at r j)) -> zlen f = g_size G -> real_valued f ->
  exists F h H Q, fourier (g_size G) nirr irrep f = Ret F /\ fg_inv G index f = Ret h /\ fourier (g_size G) nirr irrep h = Ret H /\ fr_inv nirr F = Ret Q /\ map t_v Q = map t_v H.
Proof. intros E G index nirr irrep f HG HI Hn Hr L Rf. exact (inv_transform G index HG HI nirr irrep Hn Hr f L Rf). Qed.
Print Assumptions C72_inverse_of_transform.

(* and it is not in general: inv() of a transform also conjugates f *)
Theorem C72_inverse_of_transform_refuted : exists f F h H Q, fourier 1 (cyc_nirreps 1) (fun k => Ret (cyc_irrep 1 k)) f = Ret F /\ fg_inv (cyclic 1) cyc_index f = Ret h /\
  fourier 1 (cyc_nirreps 1) (fun k => Ret (cyc_irrep 1 k)) h = Ret H /\ fr_inv (cyc_nirreps 1) F = Ret Q /\ map t_v Q <> map t_v H.
Proof. exact inv_refuted. Qed.
Print Assumptions C72_inverse_of_transform_refuted.

Example C72_example : fg_left (dihedral 3) (dih_index 3) [0; 1; 2; 3; 4; 5] (mkD 3 1 (-1)) = Ret [4; 3; 5; 1; 0; 2] /\ in_group (dihedral 3) (mkD 3 1 (-1)) /\ real_valued [(1, 0)%R; (2, 0)%R].
Proof. split; [reflexivity|]. split; [exists 4; split; [cbn; lia|reflexivity]|]. intros v [<- | [<- | []]]; reflexivity. Qed.
