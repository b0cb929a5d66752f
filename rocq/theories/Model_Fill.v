(* Models the constructors of SnPart and SnVec with a fill pattern and what Python calls ones.
   cnine is not in the repository: the patterns are what their names say, and the identity of a tensor that is not
   square is undefined here.  fill_raw (unspecified contents) and fill_gaussian (random contents) are not modelled. *)
From Coq Require Import ZArith List Bool Reals.
From Verif Require Import Model_Base Model_Perm Model_Part Model_Comb Model_Tab Model_Irrep Model_Type Model_FFT Model_Vec Spec_Fill.
Import ListNotations.
Open Scope Z_scope.

(* rtensor(cnine::dims(d,m),fill,dev) *)
Definition fill_new (p : pattern) (d m : Z) : outcome mat :=
  if (d <? 0) || (m <? 0) then UB else
  match p with
  | PZero => Ret (mkMat d m (fun _ _ => 0%R))
  | POnes => Ret (mkMat d m (fun _ _ => 1%R))
  | PIdentity => if d =? m then Ret (mident d) else UB
  end.

(* SnPart.hpp 44-48: SnPart(lambda,m,fill); zero 79-80, identity 82-83 *)
Definition sp_new (p : pattern) (lambda : part) (m : Z) : outcome spart :=
  o <- irr_new lambda ;; M <- fill_new p (io_d o) m ;; Ret (mkSpart o M).

(* SnVec.hpp 35-39: SnVec(type,fill); zero 64-66, identity 68-70 *)
Definition sv_new (p : pattern) (tau : list (list Z * Z)) : outcome (list spart) :=
  foldM (fun q R => P <- sp_new p (fst q) (snd q) ;; Ret (R ++ [P])) tau [].

(* python/bindings/SnFunctions_py.cpp 111-112 and 137-138: SnPart.ones and SnVec.ones *)
Definition py_part_ones (lambda : part) (m : Z) : outcome spart := sp_new PIdentity lambda m.
Definition py_vec_ones (tau : list (list Z * Z)) : outcome (list spart) := sv_new PIdentity tau.
