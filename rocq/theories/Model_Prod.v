(* Models Sn/SnProductRepresentation.hpp: the tensor product of two irreps.
   split1, fuse01, fuse23 and split0 of cnine are the index arithmetic their names say: a view of the same memory, so
   what is written through it is written to the tensor. *)
From Coq Require Import ZArith List Bool Reals.
From Verif Require Import Model_Base Model_Perm Model_Part Model_Comb Model_Tab Model_Irrep.
Import ListNotations.
Open Scope Z_scope.

(* split1(A,d0,d1).fuse23(): entry (a,i,j*n2+b) is entry (a,i*d1+j,b) of A; d0*d1 must be the size of the second
   dimension *)
Definition outer_get (d0 d1 : Z) (T : ten) : outcome ten :=
  if d0 * d1 =? t_n1 T
  then Ret (mkTen (t_n0 T) d0 (d1 * t_n2 T) (fun a i y => t_at T a (i * d1 + y / t_n2 T) (y mod t_n2 T))) else UB.
Definition outer_put (d1 : Z) (T S : ten) : ten :=
  mkTen (t_n0 T) (t_n1 T) (t_n2 T) (fun a i b => t_at S a (i / d1) ((i mod d1) * t_n2 T + b)).

(* split1(A,d0,d1).fuse01(): entry (a*d0+i,j,b) is entry (a,i*d1+j,b) of A *)
Definition inner_get (d0 d1 : Z) (T : ten) : outcome ten :=
  if d0 * d1 =? t_n1 T
  then Ret (mkTen (t_n0 T * d0) d1 (t_n2 T) (fun r j b => t_at T (r / d0) ((r mod d0) * d1 + j) b)) else UB.
Definition inner_put (d0 d1 : Z) (T S : ten) : ten :=
  mkTen (t_n0 T) (t_n1 T) (t_n2 T) (fun a i b => t_at S (a * d0 + i / d1) (i mod d1) b).

(* split0(A.view2(),1,d), and back *)
Definition rows_get (A : mat) : ten := mkTen 1 (m_n0 A) (m_n1 A) (fun _ i j => m_at A i j).
Definition rows_put (T : ten) : mat := mkMat (t_n1 T) (t_n2 T) (fun i j => t_at T 0 i j).

Section Product.
  (* SnProductRepresentation.hpp 30-42: rho0 and rho1; d0 and d1 are their dimensions, d=d0*d1 *)
  Variables (o0 o1 : irr).

  Definition pr_d : Z := io_d o0 * io_d o1.

  (* one call of rho0, then one call of rho1 *)
  Definition pr_both (f0 f1 : ten -> outcome ten) (T : ten) : outcome ten :=
    S <- outer_get (io_d o0) (io_d o1) T ;; S <- f0 S ;;
    let T := outer_put (io_d o1) T S in
    S <- inner_get (io_d o0) (io_d o1) T ;; S <- f1 S ;;
    Ret (inner_put (io_d o0) (io_d o1) T S).

  (* SnProductRepresentation.hpp 71-79: apply(A,tau) and apply_transp(A,tau); SnIrrep.hpp 113-115 *)
  Definition pr_apply (tau : Z) (T : ten) : outcome ten := pr_both (irr_apply_mid o0 tau) (irr_apply_mid o1 tau) T.

  (* SnProductRepresentation.hpp 81-84: apply(A,cyc); SnIrrep.hpp 118-120 *)
  Definition pr_cycle (c : ccycle) (T : ten) : outcome ten := pr_both (irr_mid_cycle o0 c) (irr_mid_cycle o1 c) T.

  (* SnProductRepresentation.hpp 55-65: JucysMurphy(k) *)
  Definition pr_jm (k : Z) : outcome mat :=
    r <- zford (k - 1) 1
           (fun i st =>
              let '(R, A) := st in
              T <- pr_apply i (rows_get A) ;;
              let A := rows_put T in
              T <- pr_cycle (mkCyc k (i + 1)) (rows_get A) ;;
              let B := rows_put T in
              Ret (madd R B, A))
           (mzero pr_d, mident pr_d) ;;
    Ret (fst r).
End Product.
