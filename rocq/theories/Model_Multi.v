(* Models the actions of Sn/SnMultiPart.hpp on a batch of vectors, in place and on a copy. *)
From Coq Require Import ZArith List Bool Reals.
From Verif Require Import Model_Base Model_Perm Model_Part Model_Irrep Model_Fun Model_FFT Spec_Multi.
Import ListNotations.
Open Scope Z_scope.

(* SnMultiPart.hpp 271-278, 289-295, 297-303 *)
Definition run_bop (x : bop) (P : mpart) : outcome mpart :=
  match x with
  | BPerm p o s => mp_apply_perm o s p P
  | BCyc a b o s => mp_apply_cycle o s (mkCyc a b) P
  | BInv a b o s => mp_apply_cycle_inv o s (mkCyc a b) P
  end.
Definition run_bops (h : list bop) (P : mpart) : outcome mpart := foldM run_bop h P.

(* SnMultiPart.hpp 262-269: apply(sigma,o,s) copies to R, reshapes *this and passes R, which still has three dimensions,
   to apply_left; there get_value(i,j) and set_value(i,j,v) with two indices address entry (i,j,0) of R and are
   undefined when j is not less than N.  Simplification: the reshapes of *this, which cancel out, are left out. *)
Definition two_index (T : ten) : mat := mkMat (t_n0 T) (t_n1 T) (fun i j => t_at T i j 0).
Definition put_two_index (T : ten) (A : mat) : ten :=
  mkTen (t_n0 T) (t_n1 T) (t_n2 T) (fun i s k => if k =? 0 then m_at A i s else t_at T i s k).
Definition mp_apply_copy (o s : Z) (sigma : perm) (P : mpart) : outcome mpart :=
  let T := mp_t P in
  let m := t_n2 T in
  A <- irr_apply_perm_block (mp_irr P) sigma (o * m) ((o + s) * m) (two_index T) ;;
  Ret (mkMpart (mp_irr P) (put_two_index T A)).

(* SnMultiPart.hpp 280-287: apply(cyc,o,s), likewise *)
Definition mp_apply_copy_cycle (o s : Z) (c : ccycle) (P : mpart) : outcome mpart :=
  let T := mp_t P in
  let m := t_n2 T in
  A <- act_cycle_block (fun t => irr_apply_block (mp_irr P) t (o * m) ((o + s) * m)) c (two_index T) ;;
  Ret (mkMpart (mp_irr P) (put_two_index T A)).
