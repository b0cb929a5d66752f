(* Model of Sn/SnBank.hpp and of the caches of Sn/SnObj.hpp (irreps, conjugacy classes, quotients),
   with the objects on a heap so that identities can be spoken of. *)
From Coq Require Import ZArith List Bool.
From Verif Require Import Model_Base Model_Perm Model_Sn Model_Part Model_Comb Model_Tab.
Import ListNotations.
Open Scope Z_scope.

(* std::map<IntegerPartition,int or pointer>: entries in order of insertion.  find compares the key with
   stored keys by IntegerPartition.hpp 216-223, which ends the process when the sizes differ; all keys of
   one map have the same size (an insertion has been through the same comparisons), so a lookup aborts
   exactly when the map is not empty and its keys have another size.  A key is found when neither is less. *)
Fixpoint pm_scan (m : list (part * Z)) (lambda : part) : outcome (option Z) :=
  match m with
  | [] => Ret None
  | (mu, v) :: m' =>
      a <- ip_lt mu lambda ;;
      b <- ip_lt lambda mu ;;
      if negb a && negb b then Ret (Some v) else pm_scan m' lambda
  end.

(* std::map<int,pointer>::find *)
Fixpoint im_find (m : list (Z * Z)) (k : Z) : option Z :=
  match m with
  | [] => None
  | (j, v) :: m' => if j =? k then Some v else im_find m' k
  end.

(* SnObj.hpp 41-55.  sn_prev is the pointer Snminus1; irreps and quotients are pointers into the heap *)
Record snobj := mkSnObj {
  sn_n : Z;
  sn_order : Z;
  sn_prev : option Z;
  sn_irreps : list Z;
  sn_imap : list (part * Z);
  sn_ccl : list part;
  sn_cmap : list (part * Z);
  sn_over : list (Z * Z) }.

(* SnIrrepObj.hpp 36-39: lambda and the tableaux *)
Record irrobj := mkIrr { ir_lambda : part; ir_tabs : list tab }.

(* the heap (SnObj, SnIrrepObj, SnOverSmObj) and SnBank.hpp 26 *)
Record sstate := mkSS {
  ss_objs : list snobj;
  ss_irr : list irrobj;
  ss_quo : list (Z * Z);
  ss_vec : list (option Z) }.

Definition ss0 : sstate := mkSS [] [] [] [].

(* SnObj.hpp 61-64 *)
Definition snobj_new (n : Z) : snobj := mkSnObj n (zfact n) None [] [] [] [] [].

(* SnBank.hpp 39-42, body of the loop *)
Definition get_Sn_fill (i : Z) (s : sstate) : outcome sstate :=
  let p := zlen (ss_objs s) in
  vec <- wr (ss_vec s) (i - 1) (Some p) ;;
  prev <- (if i >? 1 then q <- rd vec (i - 2) ;; Ret q else Ret None) ;;
  let o := snobj_new i in
  Ret (mkSS (ss_objs s ++ [mkSnObj (sn_n o) (sn_order o) prev [] [] [] [] []]) (ss_irr s) (ss_quo s) vec).

(* a pointer read from the vector; null is never dereferenced by the callers without being UB *)
Definition deref (p : option Z) : outcome Z := match p with Some q => Ret q | None => UB end.

(* SnBank.hpp 35-44.  n-1<sn.size() compares as unsigned: for n=0 the left side is the largest value, so
   the vector is emptied and sn[-1] is read; for n<0 resize throws *)
Definition get_Sn (n : Z) (s : sstate) : outcome (Z * sstate) :=
  if n <? 0 then Throw
  else if n =? 0 then UB
  else if n - 1 <? zlen (ss_vec s) then q <- rd (ss_vec s) (n - 1) ;; p <- deref q ;; Ret (p, s)
  else
    let m := zlen (ss_vec s) in
    let s1 := mkSS (ss_objs s) (ss_irr s) (ss_quo s) (ss_vec s ++ repeat None (Z.to_nat (n - m))) in
    s2 <- zfor (m + 1) (n + 1) get_Sn_fill s1 ;;
    q <- rd (ss_vec s2) (n - 1) ;;
    p <- deref q ;;
    Ret (p, s2).

(* replace the object at p *)
Definition put_obj (p : Z) (o : snobj) (s : sstate) : outcome sstate :=
  objs <- wr (ss_objs s) p o ;; Ret (mkSS objs (ss_irr s) (ss_quo s) (ss_vec s)).

(* SnObj.hpp 169-176 and SnIrrepObj.hpp 58-63 *)
Definition obj_get_irrep (p : Z) (lambda : part) (s : sstate) : outcome (Z * sstate) :=
  o <- rd (ss_objs s) p ;;
  f <- pm_scan (sn_imap o) lambda ;;
  match f with
  | Some q => Ret (q, s)
  | None =>
      ts <- young_tableaux lambda ;;
      let q := zlen (ss_irr s) in
      let s1 := mkSS (ss_objs s) (ss_irr s ++ [mkIrr lambda ts]) (ss_quo s) (ss_vec s) in
      s2 <- put_obj p (mkSnObj (sn_n o) (sn_order o) (sn_prev o) (sn_irreps o ++ [q]) (sn_imap o ++ [(lambda, q)])
                         (sn_ccl o) (sn_cmap o) (sn_over o)) s1 ;;
      Ret (q, s2)
  end.

(* SnObj.hpp 210-216; the flag all_irreps is never set *)
Definition obj_make_all_irreps (p : Z) (s : sstate) : outcome sstate :=
  o <- rd (ss_objs s) p ;;
  ps <- integer_partitions (sn_n o) ;;
  foldM (fun lambda s => r <- obj_get_irrep p lambda s ;; Ret (snd r)) ps s.

(* SnObj.hpp 178-181 *)
Definition obj_all_irreps (p : Z) (s : sstate) : outcome (list Z * sstate) :=
  s1 <- obj_make_all_irreps p s ;;
  o <- rd (ss_objs s1) p ;;
  Ret (sn_irreps o, s1).

(* Sn_IrrepHelper.hpp 46-54 *)
Definition obj_irrep_at (p i : Z) (s : sstate) : outcome (Z * sstate) :=
  s1 <- obj_make_all_irreps p s ;;
  o <- rd (ss_objs s1) p ;;
  q <- rd (sn_irreps o) i ;;
  Ret (q, s1).

(* SnObj.hpp 148-157; the keys are the distinct partitions of n, so each assignment is an insertion *)
Definition obj_make_cclasses (p : Z) (s : sstate) : outcome sstate :=
  o <- rd (ss_objs s) p ;;
  match sn_ccl o with
  | _ :: _ => Ret s
  | [] =>
      ps <- integer_partitions (sn_n o) ;;
      put_obj p (mkSnObj (sn_n o) (sn_order o) (sn_prev o) (sn_irreps o) (sn_imap o) ps
                   (sn_cmap o ++ combine ps (zrange 0 (zlen ps))) (sn_over o)) s
  end.

(* SnObj.hpp 130-138 *)
Definition obj_ncclasses (p : Z) (s : sstate) : outcome (Z * sstate) :=
  s1 <- obj_make_cclasses p s ;;
  o <- rd (ss_objs s1) p ;;
  Ret (zlen (sn_ccl o), s1).
Definition obj_cclass (p i : Z) (s : sstate) : outcome (part * sstate) :=
  s1 <- obj_make_cclasses p s ;;
  o <- rd (ss_objs s1) p ;;
  c <- rd (sn_ccl o) i ;;
  Ret (c, s1).

(* SnObj.hpp 140-143: operator[] inserts 0 for a key that is absent *)
Definition obj_cindex (p : Z) (lambda : part) (s : sstate) : outcome (Z * sstate) :=
  s1 <- obj_make_cclasses p s ;;
  o <- rd (ss_objs s1) p ;;
  f <- pm_scan (sn_cmap o) lambda ;;
  match f with
  | Some i => Ret (i, s1)
  | None =>
      s2 <- put_obj p (mkSnObj (sn_n o) (sn_order o) (sn_prev o) (sn_irreps o) (sn_imap o) (sn_ccl o)
                         (sn_cmap o ++ [(lambda, 0)]) (sn_over o)) s1 ;;
      Ret (0, s2)
  end.

(* SnObj.hpp 234-240 *)
Definition obj_get_over (p m : Z) (s : sstate) : outcome (Z * sstate) :=
  o <- rd (ss_objs s) p ;;
  match im_find (sn_over o) m with
  | Some q => Ret (q, s)
  | None =>
      let q := zlen (ss_quo s) in
      let s1 := mkSS (ss_objs s) (ss_irr s) (ss_quo s ++ [(sn_n o, m)]) (ss_vec s) in
      s2 <- put_obj p (mkSnObj (sn_n o) (sn_order o) (sn_prev o) (sn_irreps o) (sn_imap o) (sn_ccl o) (sn_cmap o)
                         (sn_over o ++ [(m, q)])) s1 ;;
      Ret (q, s2)
  end.

(* the calls a user makes; Sn(n) is get_Sn(n) followed by the call on the object *)
Inductive squery :=
| SGroup (n : Z)                        (* Sn(n) *)
| SIrrep (lambda : part)                (* SnIrrep(lambda): SnIrrep.hpp 37-47, SnBank.hpp 46-48 *)
| SIrrepOf (n : Z) (lambda : part)      (* Sn(n).irrep(lambda): Sn.hpp 152-154 *)
| SAll (n : Z)                          (* Sn(n).all_irreps(): Sn.hpp 156-162 *)
| SIrrepAt (n i : Z)                    (* Sn(n).irreps[i] *)
| SNcc (n : Z)                          (* Sn(n).ncclasses(): Sn.hpp 99-101 *)
| SCclass (n i : Z)                     (* Sn(n).cclass(i): Sn.hpp 103-105 *)
| SCindex (n : Z) (lambda : part)       (* Sn(n).index(lambda): Sn.hpp 111-117 *)
| SCclassOf (n : Z) (lambda : part)     (* Sn(n).cclass(lambda): Sn.hpp 107-109 *)
| SOver (n m : Z).                      (* SnBank.hpp 50-52 *)

Inductive sanswer :=
| SPtr (p : Z)
| SPtrs (ps : list Z)
| SInt (i : Z)
| SPart (lambda : part).

Definition sstep (q : squery) (s : sstate) : outcome (sanswer * sstate) :=
  match q with
  | SGroup n => r <- get_Sn n s ;; Ret (SPtr (fst r), snd r)
  | SIrrep lambda =>
      r <- get_Sn (ip_getn lambda) s ;; r <- obj_get_irrep (fst r) lambda (snd r) ;; Ret (SPtr (fst r), snd r)
  | SIrrepOf n lambda => r <- get_Sn n s ;; r <- obj_get_irrep (fst r) lambda (snd r) ;; Ret (SPtr (fst r), snd r)
  | SAll n => r <- get_Sn n s ;; r <- obj_all_irreps (fst r) (snd r) ;; Ret (SPtrs (fst r), snd r)
  | SIrrepAt n i => r <- get_Sn n s ;; r <- obj_irrep_at (fst r) i (snd r) ;; Ret (SPtr (fst r), snd r)
  | SNcc n => r <- get_Sn n s ;; r <- obj_ncclasses (fst r) (snd r) ;; Ret (SInt (fst r), snd r)
  | SCclass n i => r <- get_Sn n s ;; r <- obj_cclass (fst r) i (snd r) ;; Ret (SPart (fst r), snd r)
  | SCindex n lambda => r <- get_Sn n s ;; r <- obj_cindex (fst r) lambda (snd r) ;; Ret (SInt (fst r), snd r)
  | SCclassOf n lambda =>
      r <- get_Sn n s ;; let p := fst r in
      r <- obj_cindex p lambda (snd r) ;; r <- obj_cclass p (fst r) (snd r) ;; Ret (SPart (fst r), snd r)
  | SOver n m => r <- get_Sn n s ;; r <- obj_get_over (fst r) m (snd r) ;; Ret (SPtr (fst r), snd r)
  end.

Fixpoint srun (qs : list squery) (s : sstate) : outcome (list sanswer * sstate) :=
  match qs with
  | [] => Ret ([], s)
  | q :: qs' =>
      r <- sstep q s ;;
      t <- srun qs' (snd r) ;;
      Ret (fst r :: fst t, snd t)
  end.
