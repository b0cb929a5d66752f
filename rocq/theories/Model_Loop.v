(* Models the loops over containers: begin() and end() of Sn/Sn_ElementHelper.hpp, Sn/Sn_IrrepHelper.hpp,
   Sn/Sn_CclassHelper.hpp, Sn/Sn_CharacterHelper.hpp, combinatorial/IntegerPartitions.hpp and
   combinatorial/StandardYoungTableaux.hpp, and Python's loops over the classes that python/bindings gives a
   __getitem__ but no __iter__.
   cnine::GenericIterator is not part of the repository.  It holds the container and a number: begin() has number 0,
   end() the number it is given, ++ adds one, != compares the numbers and * is the container's operator[]. *)
From Coq Require Import ZArith List Bool.
From Verif Require Import Model_Base Model_Perm Model_Sn Model_Part Model_Comb Model_Tab Model_SnBank Model_Char.
Import ListNotations.
Open Scope Z_scope.

(* for(auto x: container) body: end() is evaluated once, before the first item; body may change the state.  The answer
   is the list of the items visited. *)
Definition range_for {S A} (size : S -> outcome (Z * S)) (item : Z -> S -> outcome (A * S)) (body : Z -> A -> S -> outcome S) (s : S) : outcome (list A * S) :=
  r <- size s ;;
  zfor 0 (fst r) (fun i st =>
    r <- item i (snd st) ;;
    s' <- body i (fst r) (snd r) ;;
    Ret (fst st ++ [fst r], s')) ([], snd r).

(* Sn_ElementHelper.hpp 42-52 and 62-68: elements have no state *)
Definition elements_loop (n : Z) : outcome (list perm * unit) :=
  range_for (fun s => Ret (sn_size n, s)) (fun i s => x <- sn_element n i ;; Ret (x, s)) (fun _ _ s => Ret s) tt.

(* Sn_IrrepHelper.hpp 41-54 and 66-72; the loop's body makes the calls (body i) on the group objects *)
Definition irreps_loop (n : Z) (body : Z -> list squery) (s : sstate) : outcome (list Z * sstate) :=
  r <- get_Sn n s ;; let p := fst r in
  range_for
    (fun s => s1 <- obj_make_all_irreps p s ;; o <- rd (ss_objs s1) p ;; Ret (zlen (sn_irreps o), s1))
    (fun i s => obj_irrep_at p i s)
    (fun i _ s => r <- srun (body i) s ;; Ret (snd r)) (snd r).

(* Sn_CclassHelper.hpp 42-52 and 58-64 *)
Definition classes_loop (n : Z) (body : Z -> list squery) (s : sstate) : outcome (list part * sstate) :=
  r <- get_Sn n s ;; let p := fst r in
  range_for (obj_ncclasses p) (obj_cclass p) (fun i _ s => r <- srun (body i) s ;; Ret (snd r)) (snd r).

(* Sn_CharacterHelper.hpp 32-33, 41-49 and 56-62, SnCharBank.hpp 61-63; the level is the one at n-1 of the bank *)
Definition chars_loop (n : Z) (body : Z -> list chq) (b : list clev) : outcome (list cfun * list clev) :=
  range_for
    (fun b => r <- cb_level b n ;; let '(v, b) := r in v <- cl_make_all v ;; b <- wr b (n - 1) v ;; Ret (zlen (cl_chars v), b))
    (fun i b => chstep (ChAt n i) b)
    (fun i _ b => r <- chrun (body i) b ;; Ret (snd r)) b.

(* IntegerPartitions.hpp 64-70 and 79-85 *)
Definition parts_at (n i : Z) : outcome part := L <- integer_partitions n ;; rd L i.
Definition parts_loop (n : Z) : outcome (list part * unit) :=
  range_for (fun s => L <- integer_partitions n ;; Ret (zlen L, s)) (fun i s => x <- parts_at n i ;; Ret (x, s)) (fun _ _ s => Ret s) tt.

(* IntegerPartitions.hpp 72-77: both ends are included *)
Definition parts_slice (n first last : Z) : outcome (list part) :=
  zfor first (last + 1) (fun i R => x <- parts_at n i ;; Ret (R ++ [x])) [].

(* StandardYoungTableaux.hpp 49-63 *)
Definition tabs_at (lambda : part) (i : Z) : outcome tab := L <- young_tableaux lambda ;; rd L i.
Definition tabs_loop (lambda : part) : outcome (list tab * unit) :=
  range_for (fun s => L <- young_tableaux lambda ;; Ret (zlen L, s)) (fun i s => x <- tabs_at lambda i ;; Ret (x, s)) (fun _ _ s => Ret s) tt.

(* Python's loop over an object whose class has __getitem__ and no __iter__: items 0, 1, 2, ... until the call raises.
   The first k steps: the items so far, and whether the loop has ended. *)
Fixpoint py_loop {A} (item : Z -> outcome A) (i : Z) (k : nat) : outcome (list A * bool) :=
  match k with
  | O => Ret ([], false)
  | S k' =>
      match item i with
      | Ret a => r <- py_loop item (i + 1) k' ;; Ret (a :: fst r, snd r)
      | Throw => Ret ([], true)
      | Abort => Abort
      | UB => UB
      end
  end.
