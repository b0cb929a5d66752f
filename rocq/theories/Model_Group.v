(* Model of groups/ and include/FunctionOnGroup.hpp: finite groups, their irreps, functions on them and the Fourier
   transform.  float and double are the real numbers, std::complex<float> is a pair of reals.  n is an int, never 0 in
   2*M_PI/n (a group of size 0 has no elements to evaluate). *)
From Coq Require Import ZArith List Bool Reals.
From Verif Require Import Model_Base.
Import ListNotations.
Open Scope Z_scope.

(* ---- std::complex<float> ---- *)
Notation cx := (R * R)%type (only parsing).
Definition cx0 : cx := (0, 0)%R.
Definition cx1 : cx := (1, 0)%R.
Definition cadd (a b : cx) : cx := (fst a + fst b, snd a + snd b)%R.
Definition cmul (a b : cx) : cx := (fst a * fst b - snd a * snd b, fst a * snd b + snd a * fst b)%R.
Definition cconj (a : cx) : cx := (fst a, - snd a)%R.
Definition creal (x : R) : cx := (x, 0%R).

(* ---- cnine::CtensorObj, which is not in the repository: the dimensions and the entries in row-major order ---- *)
Record ctensor := mkT { t_dims : list Z; t_v : list (R * R) }.
Definition t_asize (ds : list Z) : Z := fold_right Z.mul 1 ds.
(* ctensor(dims,fill_zero()), ctensor(dims,fill_ones()) *)
Definition t_fill (c : cx) (ds : list Z) : ctensor := mkT ds (repeat c (Z.to_nat (t_asize ds))).
(* R.add(x,c): adds c*x entry by entry; cnine asserts that the sizes agree *)
Definition t_add (r x : ctensor) (c : cx) : outcome ctensor :=
  _ <- assert_ (zlen (t_v r) =? zlen (t_v x)) ;;
  Ret (mkT (t_dims r) (map (fun p => cadd (fst p) (cmul (snd p) c)) (combine (t_v r) (t_v x)))).
(* x.inp(y): the inner product, the sum of x_i times the conjugate of y_i; cnine asserts that the sizes agree *)
Definition t_inp (x y : ctensor) : outcome cx :=
  _ <- assert_ (zlen (t_v x) =? zlen (t_v y)) ;;
  Ret (fold_left cadd (map (fun p => cmul (fst p) (cconj (snd p))) (combine (t_v x) (t_v y))) cx0).
(* x*y: the matrix product; a tensor with one dimension is a row on the left and a column on the right; the inner
   dimensions must agree *)
Definition t_rows (x : ctensor) : Z := match t_dims x with [_] => 1 | a :: _ => a | [] => 1 end.
Definition t_cols (x : ctensor) : Z := match t_dims x with [_] => 1 | [_; b] => b | _ => 1 end.
Definition t_inner_l (x : ctensor) : Z := match t_dims x with [a] => a | [_; b] => b | _ => 1 end.
Definition t_inner_r (x : ctensor) : Z := match t_dims x with a :: _ => a | [] => 1 end.
Definition t_prod (x y : ctensor) : outcome ctensor :=
  _ <- assert_ (t_inner_l x =? t_inner_r y) ;;
  v <- zfor 0 (t_rows x)
         (fun i v => zfor 0 (t_cols y)
            (fun j v =>
               s <- zfor 0 (t_inner_l x) (fun k s => a <- rd (t_v x) (i * t_inner_l x + k) ;; b <- rd (t_v y) (k * t_cols y + j) ;; Ret (cadd s (cmul a b))) cx0 ;;
               Ret (v ++ [s])) v) [] ;;
  Ret (mkT [t_rows x; t_cols y] v).
(* cnine::herm(x): the conjugate transpose *)
Definition t_herm (x : ctensor) : outcome ctensor :=
  match t_dims x with
  | [a; b] =>
      v <- zfor 0 b (fun i v => zfor 0 a (fun j v => c <- rd (t_v x) (j * b + i) ;; Ret (v ++ [cconj c])) v) [] ;;
      Ret (mkT [b; a] v)
  | _ => Abort
  end.

(* ---- what FunctionOnGroup, FourierOnGroup and ProductGroup use of a group and of an irrep ---- *)
Record gops (E : Type) := mkG { g_size : Z; g_identity : E; g_element : Z -> outcome E; g_mul : E -> E -> outcome E; g_inverse : E -> outcome E }.
Arguments mkG {E}. Arguments g_size {E}. Arguments g_identity {E}. Arguments g_element {E}. Arguments g_mul {E}. Arguments g_inverse {E}.
Record girr := mkI { i_dim : Z; i_at : Z -> ctensor }.

(* ---- CyclicGroupElement.hpp, CyclicGroup.hpp ---- *)
(* CyclicGroupElement.hpp 23-24 *)
Record celt := mkC { c_n : Z; c_i : Z }.
(* CyclicGroupElement.hpp 40-42 *)
Definition c_inverse (x : celt) : outcome celt := r <- cmod (- c_i x + c_n x) (c_n x) ;; Ret (mkC (c_n x) r).
(* CyclicGroupElement.hpp 44-47 *)
Definition c_mul (x y : celt) : outcome celt :=
  _ <- assert_ (c_n y =? c_n x) ;;
  r <- cmod (c_i x + c_i y) (c_n x) ;; Ret (mkC (c_n x) r).
(* CyclicGroup.hpp 36-46 *)
Definition cyclic (n : Z) : gops celt := mkG n (mkC n 0) (fun i => Ret (mkC n i)) c_mul c_inverse.
(* CyclicGroup.hpp 48-50, CyclicGroupElement.hpp 36-38 *)
Definition cyc_index (x : celt) : Z := c_i x.
(* CyclicGroup.hpp 55-61 *)
Definition cyc_nirreps (n : Z) : Z := n.
(* CyclicGroupIrrep.hpp 39-53: dim is 1; a tensor of dimensions {1} *)
Definition cyc_irrep (n k : Z) : girr :=
  mkI 1 (fun i => let c := (2 * PI / IZR n)%R in mkT [1] [(cos (c * IZR k * IZR i), sin (c * IZR k * IZR i))%R]).

(* ---- DihedralGroupElement.hpp, DihedralGroup.hpp ---- *)
(* DihedralGroupElement.hpp 23-25 *)
Record delt := mkD { d_n : Z; d_i : Z; d_s : Z }.
(* DihedralGroupElement.hpp 37-40 *)
Definition d_index (x : delt) : Z := if d_s x =? 1 then d_i x else d_n x + d_i x.
(* DihedralGroupElement.hpp 42-44 *)
Definition d_inverse (x : delt) : outcome delt := r <- cmod (d_s x * - d_i x + d_n x) (d_n x) ;; Ret (mkD (d_n x) r (d_s x)).
(* DihedralGroupElement.hpp 46-49 *)
Definition d_mul (x y : delt) : outcome delt :=
  _ <- assert_ (d_n y =? d_n x) ;;
  r <- cmod (d_i x + d_s x * d_i y + d_n x) (d_n x) ;; Ret (mkD (d_n x) r (d_s x * d_s y)).
(* DihedralGroup.hpp 36-47 *)
Definition dih_element (n i : Z) : delt := if i <? n then mkD n i 1 else mkD n (i - n) (-1).
Definition dihedral (n : Z) : gops delt := mkG (2 * n) (mkD n 0 1) (fun i => Ret (dih_element n i)) d_mul d_inverse.
(* DihedralGroup.hpp 49-55 *)
Definition dih_r (n i : Z) : delt := mkD n i 1.
Definition dih_s (n : Z) : delt := mkD n 1 (-1).
(* DihedralGroup.hpp 57-59 *)
Definition dih_index (n : Z) (x : delt) : Z := d_i x + n * (if d_s x =? -1 then 1 else 0).
(* DihedralGroup.hpp 65-68 *)
Definition dih_nirreps (n : Z) : Z := if Z.rem n 2 =? 0 then Z.quot n 2 + 3 else Z.quot (n - 1) 2 + 2.
(* DihedralGroupIrrep.hpp 38-41 *)
Definition dih_dim (n k : Z) : Z := if k <? 2 * (1 + (if Z.rem n 2 =? 0 then 1 else 0)) then 1 else 2.
(* DihedralGroupIrrep.hpp 43-81; the second test for k==2 (lines 61-65) is never reached *)
Definition dih_at (n k i : Z) : ctensor :=
  if k =? 0 then t_fill cx1 [1]
  else if k =? 1 then mkT [1] [creal (1 - 2 * (if n <=? i then 1 else 0))%R]
  else if (Z.rem n 2 =? 0) && (k =? 2) then mkT [1] [creal (1 - 2 * IZR (Z.rem i 2))%R]
  else
    let p := k - 1 - 2 * (if Z.rem n 2 =? 0 then 1 else 0) in
    let c := (2 * PI / IZR n)%R in
    let a := (cos (c * IZR p * IZR i), sin (c * IZR p * IZR i))%R in
    let b := (cos (c * IZR p * IZR i), - sin (c * IZR p * IZR i))%R in
    if i <? n then mkT [2; 2] [a; cx0; cx0; b] else mkT [2; 2] [cx0; a; b; cx0].
Definition dih_irrep (n k : Z) : girr := mkI (dih_dim n k) (dih_at n k).

(* ---- ProductGroupElement.hpp, ProductGroup.hpp ----
   index() of an element (lines 35-37) calls size() on a group element, which no element class has; it cannot be
   instantiated and is left out, and ProductGroup has no index either. *)
Section Product.
  Context {E1 E2 : Type} (g1 : gops E1) (g2 : gops E2).
  (* ProductGroupElement.hpp 39-41 *)
  Definition pr_inverse (x : E1 * E2) : outcome (E1 * E2) := a <- g_inverse g1 (fst x) ;; b <- g_inverse g2 (snd x) ;; Ret (a, b).
  (* ProductGroupElement.hpp 43-45 *)
  Definition pr_mul (x y : E1 * E2) : outcome (E1 * E2) := a <- g_mul g1 (fst x) (fst y) ;; b <- g_mul g2 (snd x) (snd y) ;; Ret (a, b).
  (* ProductGroup.hpp 57-59 *)
  Definition pr_element (i : Z) : outcome (E1 * E2) :=
    q <- cdiv i (g_size g2) ;; r <- cmod i (g_size g2) ;; a <- g_element g1 q ;; b <- g_element g2 r ;; Ret (a, b).
  (* ProductGroup.hpp 49-55 *)
  Definition product : gops (E1 * E2) := mkG (g_size g1 * g_size g2) (g_identity g1, g_identity g2) pr_element pr_mul pr_inverse.
End Product.
(* ProductGroup.hpp 64-66 *)
Definition pr_nirreps (n1 n2 : Z) : Z := n1 * n2.
(* ProductGroupIrrep.hpp 37-47: the matrix is filled with zeros and returned *)
Definition pr_irrep2 (r1 r2 : girr) : girr := mkI (i_dim r1 * i_dim r2) (fun i => t_fill cx0 [i_dim r1 * i_dim r2; i_dim r1 * i_dim r2]).
(* ProductGroup.hpp 68-71 *)
Definition pr_irrep (irrep1 irrep2 : Z -> outcome girr) (n2 : Z) (i : Z) : outcome girr :=
  q <- cdiv i n2 ;; r <- cmod i n2 ;; a <- irrep1 q ;; b <- irrep2 r ;; Ret (pr_irrep2 a b).

(* ---- include/FunctionOnGroup.hpp ---- *)
Section Functions.
  Context {E A : Type} (G : gops E) (index : E -> Z).
  (* FunctionOnGroup.hpp 62-64, 71-73 *)
  Definition fg_get (f : list A) (i : Z) : outcome A := rd f i.
  Definition fg_at (f : list A) (x : E) : outcome A := rd f (index x).
  (* FunctionOnGroup.hpp 66-69, 75-78 *)
  Definition fg_set (f : list A) (i : Z) (v : A) : outcome (list A) := wr f i v.
  Definition fg_set_at (f : list A) (x : E) (v : A) : outcome (list A) := wr f (index x) v.
  (* FunctionOnGroup.hpp 83-102: the result is made with fill_raw; [move] is the element that value i goes to *)
  Definition fg_scatter (f : list A) (move : E -> outcome E) : outcome (list A) :=
    b <- zfor 0 (g_size G)
           (fun i b => x <- g_element G i ;; y <- move x ;; v <- fg_get f i ;; wr b (index y) (Some v))
           (repeat None (Z.to_nat (g_size G))) ;;
    freeze b.
  (* FunctionOnGroup.hpp 83-88 *)
  Definition fg_left (f : list A) (t : E) : outcome (list A) := fg_scatter f (fun x => g_mul G t x).
  (* FunctionOnGroup.hpp 90-95 *)
  Definition fg_right (f : list A) (t : E) : outcome (list A) := fg_scatter f (fun x => g_mul G x t).
  (* FunctionOnGroup.hpp 97-102 *)
  Definition fg_inv (f : list A) : outcome (list A) := fg_scatter f (fun x => g_inverse G x).
End Functions.

(* ---- FourierOnGroup.hpp ---- *)
Section Fourier.
  Variables (N nirr : Z) (irrep : Z -> outcome girr).
  (* FourierOnGroup.hpp 65-79 *)
  Definition fourier (f : list (R * R)) : outcome (list ctensor) :=
    zfor 0 nirr
      (fun i parts =>
         rho <- irrep i ;;
         P <- zfor 0 N (fun j P => v <- rd f j ;; t_add P (i_at rho j) v) (t_fill cx0 [i_dim rho; i_dim rho]) ;;
         Ret (parts ++ [P])) [].
  (* FourierOnGroup.hpp 81-91; inc adds to an entry *)
  Definition ifourier (parts : list ctensor) : outcome (list (R * R)) :=
    zfor 0 nirr
      (fun i f =>
         rho <- irrep i ;;
         let c := (IZR (i_dim rho) / IZR N)%R in
         zfor 0 N
           (fun j f =>
              P <- rd parts i ;;
              x <- t_inp P (i_at rho j) ;;
              v <- rd f j ;;
              wr f j (cadd v (cmul x (creal c)))) f)
      (repeat cx0 (Z.to_nat N)).
  (* FourierOnGroup.hpp 99-115: t is given by its index, which is what rho(t) uses *)
  Definition fr_left (t : Z) (parts : list ctensor) : outcome (list ctensor) :=
    zfor 0 nirr (fun i q => rho <- irrep i ;; P <- rd parts i ;; M <- t_prod (i_at rho t) P ;; Ret (q ++ [M])) [].
  Definition fr_right (t : Z) (parts : list ctensor) : outcome (list ctensor) :=
    zfor 0 nirr (fun i q => rho <- irrep i ;; P <- rd parts i ;; M <- t_prod P (i_at rho t) ;; Ret (q ++ [M])) [].
  (* FourierOnGroup.hpp 117-123 *)
  Definition fr_inv (parts : list ctensor) : outcome (list ctensor) :=
    zfor 0 nirr (fun i q => P <- rd parts i ;; M <- t_herm P ;; Ret (q ++ [M])) [].
End Fourier.
