(* Lifetime of SnIrrepObj: its eight owning pointers.  No proofs here.
   What the tables contain is in Model_Irrep (compute_yor, yor_plan); here only who owns what. *)
From Coq Require Import ZArith List Bool.
From Verif Require Import Model_Base Model_Perm Model_Irrep Spec_Life.
Import ListNotations.
Open Scope Z_scope.

(* a pointer member: never initialised, null, or the block with that number *)
Inductive ptr := Wild | Null | To (b : Z).

(* SnIrrepObj.hpp 40, 45-53: the members, and the blocks obtained so far (true: not yet deleted) *)
Record life := Life {
  lf_YORt : ptr; lf_YOR1 : ptr; lf_YOR2 : ptr;
  lf_ndiags : ptr; lf_diagIndices : ptr; lf_diagCoeffs : ptr; lf_givensIndices : ptr; lf_givensCoeffs : ptr;
  lf_jm : list Z;                 (* the keys present in the cache YJM, a container that frees its own contents *)
  lf_blocks : list bool
}.

(* SnIrrepObj.hpp 58-63 with the default member initialisers 45-53: YOR1 and YOR2 have none *)
Definition lf_new : life := Life Null Wild Wild Null Null Null Null Null [] [].

(* 430-452: computeYOR: if(YORt) return; three arrays *)
Definition lf_computeYOR (s : life) : outcome life :=
  match lf_YORt s with
  | To _ => Ret s
  | Wild => UB
  | Null =>
      let k := zlen (lf_blocks s) in
      Ret (Life (To k) (To (k + 1)) (To (k + 2))
                (lf_ndiags s) (lf_diagIndices s) (lf_diagCoeffs s) (lf_givensIndices s) (lf_givensCoeffs s)
                (lf_jm s) (lf_blocks s ++ [true; true; true]))
  end.

(* 454-486: computeYORtensors: if(YORndiags) return; five tensors *)
Definition lf_computeYORtensors (s : life) : outcome life :=
  match lf_ndiags s with
  | To _ => Ret s
  | Wild => UB
  | Null =>
      let k := zlen (lf_blocks s) in
      Ret (Life (lf_YORt s) (lf_YOR1 s) (lf_YOR2 s)
                (To k) (To (k + 1)) (To (k + 2)) (To (k + 3)) (To (k + 4))
                (lf_jm s) (lf_blocks s ++ [true; true; true; true; true]))
  end.

(* the calls; [act_perm], [act_cycle], ... are the loops of Model_Irrep, run here on the object's state *)
Definition lf_use (n : Z) (u : use) (s : life) : outcome life :=
  let act := fun (_ : Z) s => lf_computeYOR s in
  let vact := fun (_ : Z) s => lf_computeYORtensors s in
  match u with
  | UseTau tau => act tau s                                                (* 166-191, 312-338, 375-397 *)
  | UseSigma sigma => act_perm act n sigma s                               (* 94-98, 126-140, 276-288, 349-363 *)
  | UseCycle a b => act_cycle act (mkCyc a b) s                            (* 142-150, 291-299 *)
  | UseCycleInv a b => act_cycle_inv act (mkCyc a b) s                     (* 152-155 *)
  | UseTransp i j => act_transp act (mkTransp i j) s                       (* 157-164, 302-309 *)
  | UseChar mu =>                                                          (* 100-107 *)
      r <- zfor 0 (zlen mu)
             (fun i st => let '(s, a) := st in
                m <- rd mu i ;;
                s <- act_cycle act (mkCyc a (a + m - 1)) s ;;
                Ret (s, a + m))
             (s, 1) ;;
      Ret (fst r)
  | UseJM k =>                                                             (* 492-505 *)
      _ <- assert_ (k <=? n) ;;
      if existsb (Z.eqb k) (lf_jm s) then Ret s else
      s <- zford (k - 1) 1 (fun i s => s <- act i s ;; act_cycle_inv act (mkCyc (i + 1) k) s) s ;;
      Ret (Life (lf_YORt s) (lf_YOR1 s) (lf_YOR2 s)
                (lf_ndiags s) (lf_diagIndices s) (lf_diagCoeffs s) (lf_givensIndices s) (lf_givensCoeffs s)
                (lf_jm s ++ [k]) (lf_blocks s))
  | ViewTau tau => vact tau s                                              (* 234-243 *)
  | ViewSigma sigma => act_perm vact n sigma s                             (* 198-210 *)
  | ViewCycle a b => act_cycle vact (mkCyc a b) s                          (* 213-221 *)
  | ViewTransp i j => act_transp vact (mkTransp i j) s                     (* 224-231 *)
  end.

Definition lf_run (n : Z) (h : list use) (s : life) : outcome life := foldM (lf_use n) h s.

(* delete p, delete[] p *)
Definition lf_delete (p : ptr) (bl : list bool) : outcome (list bool) :=
  match p with
  | Wild => UB
  | Null => Ret bl
  | To b => live <- rd bl b ;; if live : bool then wr bl b false else UB
  end.

(* 65-74: ~SnIrrepObj; the result is the blocks afterwards *)
Definition lf_dtor (s : life) : outcome (list bool) :=
  b <- lf_delete (lf_YORt s) (lf_blocks s) ;;
  b <- lf_delete (lf_YOR1 s) b ;;
  b <- lf_delete (lf_YOR2 s) b ;;
  b <- lf_delete (lf_ndiags s) b ;;
  b <- lf_delete (lf_diagIndices s) b ;;
  b <- lf_delete (lf_diagCoeffs s) b ;;
  b <- lf_delete (lf_givensIndices s) b ;;
  lf_delete (lf_givensCoeffs s) b.
