(* Models Sn/SnWeights.hpp and the action of a transposition on vectors and parts.  SnWeights has one matrix for each irrep, by which the columns of a vector are mixed.
   The container is an unordered_map; what the class returns does not depend on its order, here it is a list.
   cnine is not in the repository: tensors of negative size, the transpose of a tensor with one index and the product of
   matrices that do not fit are undefined. *)
From Coq Require Import ZArith List Bool Reals.
From Verif Require Import Model_Base Model_Perm Model_Part Model_Comb Model_Tab Model_Irrep Model_Type Model_FFT Model_Vec Model_Char Model_CG Model_CGvec Model_VecB Model_Prod Model_Learn.
From Verif Require Import Spec_Life Model_Life.
Import ListNotations.
Open Scope Z_scope.

(* an rtensor with one index of size k, or with two *)
Inductive wten := W1 (k : Z) | W2 (M : mat).

(* SnWeights.hpp 24 *)
Definition weights := list (list Z * wten).

(* weights[lambda]=mx: overwrites, or inserts *)
Fixpoint um_put {V} (m : list (list Z * V)) (k : part) (v : V) : list (list Z * V) :=
  match m with
  | [] => [(k, v)]
  | (x, w) :: m' => if ip_eq x k then (x, v) :: m' else (x, w) :: um_put m' k v
  end.
(* find *)
Fixpoint um_find {V} (m : list (list Z * V)) (k : part) : option V :=
  match m with
  | [] => None
  | (x, v) :: m' => if ip_eq x k then Some v else um_find m' k
  end.

(* SnWeights.hpp 37-43: from two types; fill lambda i j are the entries of the fill pattern.  y is taken as const, but
   operator() of SnType goes through operator[]: the second result is y afterwards.  If x and y are the same object every
   key of x is there already, and nothing is inserted. *)
Definition sw_types (x y : list (list Z * Z)) (fill : list Z -> Z -> Z -> R) : outcome (weights * list (list Z * Z)) :=
  foldM (fun p st =>
    let '(W, y) := st in
    c <- ty_call y (fst p) ;; let '(m, y) := c in
    if (snd p <? 0) || (m <? 0) then UB else
    Ret (um_put W (fst p) (W2 (mkMat (snd p) m (fill (fst p)))), y)) x ([], y).

(* SnWeights.hpp 45-55: from two vectors; dims(a*b) has one index *)
Definition sw_vecs (x y : list spart) : outcome weights :=
  _ <- assert_ (zlen x =? zlen y) ;;
  zfor 0 (zlen x) (fun i W =>
    P <- rd x i ;; Q <- rd y i ;;
    _ <- assert_ (ip_eq (io_lambda (sp_irr P)) (io_lambda (sp_irr Q))) ;;
    Ret (um_put W (io_lambda (sp_irr P)) (W1 (m_n1 (sp_mat P) * m_n1 (sp_mat Q))))) [].

(* SnWeights.hpp 61-65: get_matrix, and 67-71: get_matrixp *)
Definition sw_get (W : weights) (lambda : part) : outcome wten :=
  match um_find W lambda with Some M => Ret M | None => Abort end.

(* SnWeights.hpp 76-82: operator* *)
Definition sw_mul (W : weights) (y : list spart) : outcome (list spart) :=
  foldM (fun P R =>
    M <- sw_get W (io_lambda (sp_irr P)) ;;
    T <- match M with W1 _ => UB | W2 M => mat_mul (sp_mat P) (mtransp M) end ;;
    Ret (R ++ [mkSpart (sp_irr P) T])) y [].

(* ---- who owns the matrices ---- *)

(* SnWeights.hpp 38-42: each new tensor is a block; the result is the map of the pointers, and the blocks (true: not yet deleted) *)
Definition wo_new (keys : list part) (h : list bool) : list (list Z * ptr) * list bool :=
  fold_left (fun st k => (um_put (fst st) k (To (zlen (snd st))), snd st ++ [true])) keys ([], h).

(* the copy constructor is the implicit one: it copies the pointers *)
Definition wo_copy (w : list (list Z * ptr)) : list (list Z * ptr) := w.

(* SnWeights.hpp 26-29: the destructor *)
Definition wo_dtor (w : list (list Z * ptr)) (h : list bool) : outcome (list bool) := foldM (fun p h => lf_delete (snd p) h) w h.

(* SnVec.hpp 136-142, and SnPart.hpp 239-243 for each part: apply(Transposition) *)
Definition sv_apply_transp (x : transposition) (v : list spart) : outcome (list spart) :=
  foldM (fun P R => A <- act_transp (irr_apply (sp_irr P)) x (sp_mat P) ;; Ret (R ++ [mkSpart (sp_irr P) A])) v [].
