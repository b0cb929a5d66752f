(* Models the Clebsch-Gordan product of vectors: Sn/SnCGbank.hpp get_CGfactors, CGproduct(SnVec,SnVec),
   CGproduct(SnPart,SnPart), add_CGprod and accumulate_CGprod.
   The numbers that learn puts into the factors come from an eigenvalue routine of cnine: here they are a parameter F,
   F lambda1 lambda2 mu i j; Model_Learn models learn.  learn only overwrites entries, so the factors have the sizes get_CGfactors gives them.
   learn can also end the process, and CheckCG only prints. *)
From Coq Require Import ZArith List Bool Reals.
From Verif Require Import Model_Base Model_Part Model_Comb Model_Tab Model_Irrep Model_Type Model_FFT Model_Vec Model_Char Model_CG.
Import ListNotations.
Open Scope Z_scope.

(* the product of two rtensors; cnine is not in the repository, the product of matrices that do not fit is undefined *)
Definition mat_mul (A B : mat) : outcome mat :=
  if m_n1 A =? m_n0 B then Ret (mkMat (m_n0 A) (m_n1 B) (fun i j => acc_sum (m_n1 A) (fun k => (m_at A i k * m_at B k j)%R)))
  else UB.

Definition ftable := list Z -> list Z -> list Z -> Z -> Z -> R.

(* SnCGbank.hpp 110-123: the keys and the matrices of get_CGfactors(lambda1,lambda2).  The factors are made once; that
   the second call finds them again is not modelled, F does not change. *)
Definition cg_factors (F : ftable) (b : cgbank) (lambda1 lambda2 : part) : outcome (list (part * mat) * cgbank) :=
  r <- cg_product b lambda1 lambda2 ;; let '(t, b) := r in
  sub <- ty_down t ;;
  Ret (map (fun p => (fst p, mkMat (snd p) (snd p) (F lambda1 lambda2 (fst p)))) sub, b).

(* SnCGbank.hpp 256-264: add_CGprod, with accumulate_CGprod as a parameter *)
Definition cg_add (acc : cgbank -> list spart -> stype -> spart -> spart -> outcome (list spart * stype * cgbank))
    (b : cgbank) (R : list spart) (x y : list spart) : outcome (list spart * cgbank) :=
  r <- foldM (fun p st =>
         foldM (fun q st => let '(R, offs, b) := st in acc b R offs p q) y st) x (R, [], b) ;;
  let '(R, _, b) := r in Ret (R, b).

(* SnCGbank.hpp 240-245: CGproduct(SnVec,SnVec) *)
Definition cg_vec_with (acc : cgbank -> list spart -> stype -> spart -> spart -> outcome (list spart * stype * cgbank))
    (b : cgbank) (x y : list spart) : outcome (list spart * cgbank) :=
  tx <- sv_type x ;; ty <- sv_type y ;;
  r <- cg_product_types b tx ty ;; let '(t, b) := r in
  R <- sv_zero t ;;
  cg_add acc b R x y.

(* SnCGbank.hpp 267-297: accumulate_CGprod(R,offs,x,y); fuel bounds the depth of the recursion, which goes from n to n-1 *)
Fixpoint cg_acc (F : ftable) (fuel : nat) (b : cgbank) (R : list spart) (offs : stype) (x y : spart) : outcome (list spart * stype * cgbank) :=
  match fuel with
  | O => UB
  | S fuel' =>
      let lambda1 := io_lambda (sp_irr x) in
      let lambda2 := io_lambda (sp_irr y) in
      let n := io_n (sp_irr x) in
      _ <- assert_ (io_n (sp_irr y) =? n) ;;
      if n =? 1 then
        let I := m_n1 (sp_mat x) in
        let J := m_n1 (sp_mat y) in
        R <- zfor 0 I (fun i R => zfor 0 J (fun j R =>
               u <- mget (sp_mat x) 0 i ;; v <- mget (sp_mat y) 0 j ;;
               P <- rd R 0 ;; M <- minc (sp_mat P) 0 (i * J + j) (u * v)%R ;;
               wr R 0 (mkSpart (sp_irr P) M)) R) R ;;
        offs <- ty_add offs [1] (I * J) ;;
        Ret (R, offs, b)
      else
        xsub <- sv_down x ;;
        ysub <- sv_down y ;;
        r <- cg_vec_with (cg_acc F fuel') b xsub ysub ;; let '(sub, b) := r in
        r <- cg_factors F b lambda1 lambda2 ;; let '(fs, b) := r in
        tilde <- foldM (fun p st =>
                   let ix := sv_index sub (fst p) in
                   _ <- assert_ (0 <=? ix) ;;
                   P <- rd sub ix ;;
                   o <- irr_new (fst p) ;;
                   M <- mat_mul (sp_mat P) (snd p) ;;
                   Ret (st ++ [mkSpart o M])) fs [] ;;
        r <- cg_product b lambda1 lambda2 ;; let '(t, b) := r in
        r <- sv_accumulate_up R offs tilde t ;;
        Ret (fst r, snd r, b)
  end.

(* SnCGbank.hpp 240-245 and 248-253: the two entry points.  n is the depth of the recursion. *)
Definition cg_vec (F : ftable) (b : cgbank) (x y : list spart) : outcome (list spart * cgbank) :=
  cg_vec_with (fun b R offs p q => cg_acc F (Z.to_nat (io_n (sp_irr p))) b R offs p q) b x y.

Definition cg_part (F : ftable) (b : cgbank) (x y : spart) : outcome (list spart * cgbank) :=
  r <- cg_product b (io_lambda (sp_irr x)) (io_lambda (sp_irr y)) ;; let '(t, b) := r in
  R <- sv_zero t ;;
  r <- cg_acc F (Z.to_nat (io_n (sp_irr x))) b R [] x y ;;
  let '(R, _, b) := r in Ret (R, b).

(* the calls a user makes: those of Model_CG and products of vectors and of parts *)
Inductive cvq := CTypes (q : cgq) | CVec (x y : list spart) | CPart (x y : spart).
Inductive cva := RTypes (a : cga) | RVec (R : list spart).

Definition cvstep (F : ftable) (q : cvq) (b : cgbank) : outcome (cva * cgbank) :=
  match q with
  | CTypes q => r <- cgstep q b ;; Ret (RTypes (fst r), snd r)
  | CVec x y => r <- cg_vec F b x y ;; Ret (RVec (fst r), snd r)
  | CPart x y => r <- cg_part F b x y ;; Ret (RVec (fst r), snd r)
  end.

Fixpoint cvrun (F : ftable) (qs : list cvq) (b : cgbank) : outcome (list cva * cgbank) :=
  match qs with
  | [] => Ret ([], b)
  | q :: qs' => r <- cvstep F q b ;; t <- cvrun F qs' (snd r) ;; Ret (fst r :: fst t, snd t)
  end.
