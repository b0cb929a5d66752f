(* Model of Sn/SnFunction.hpp: real functions on Sn, indexed by the enumeration of the group.
   include/FunctionOnGroup.hpp 56-102 has the same functions over a general group; with the group Sn they
   read word for word as the ones below.  float is the real numbers. *)
From Coq Require Import ZArith List Bool Reals.
From Verif Require Import Model_Base Model_Perm Model_Sn.
Import ListNotations.
Open Scope Z_scope.

(* SnFunction.hpp 28-29: the degree n and the values (a one-dimensional tensor of size N) *)
Record sfun := mkFun { sf_n : Z; sf_v : list R }.
(* SnFunction.hpp 38-43, 99-104: N is the size of the tensor in both constructors *)
Definition sf_N (f : sfun) : Z := zlen (sf_v f).

(* SnFunction.hpp 118-120, 126-129: by index; set_value on a tensor made with fill_raw, whose cells are
   uninitialised until written *)
Definition sf_get (f : sfun) (i : Z) : outcome R := rd (sf_v f) i.
Definition raw_set (b : list (option R)) (i : Z) (x : R) : outcome (list (option R)) := wr b i (Some x).
(* SnFunction.hpp 38-43 with fill_raw *)
Definition sf_raw (n : Z) : list (option R) := repeat None (Z.to_nat (sn_size n)).
(* the finished tensor; a cell that was never written is undefined *)
Definition sf_done (n : Z) (b : list (option R)) : outcome sfun := v <- freeze b ;; Ret (mkFun n v).

(* SnFunction.hpp 131-138: by element *)
Definition sf_at (f : sfun) (s : perm) : outcome R := i <- sn_index (sf_n f) s ;; sf_get f i.

(* SnFunction.hpp 150-156 *)
Definition sf_left_translate (f : sfun) (t : perm) : outcome sfun :=
  b <- zfor 0 (sf_N f)
         (fun i b =>
            s <- sn_element (sf_n f) i ;;
            s <- p_mul t s ;;
            k <- sn_index (sf_n f) s ;;
            x <- sf_get f i ;;
            raw_set b k x)
         (sf_raw (sf_n f)) ;;
  sf_done (sf_n f) b.

(* SnFunction.hpp 158-164 *)
Definition sf_right_translate (f : sfun) (t : perm) : outcome sfun :=
  b <- zfor 0 (sf_N f)
         (fun i b =>
            s <- sn_element (sf_n f) i ;;
            s <- p_mul s t ;;
            k <- sn_index (sf_n f) s ;;
            x <- sf_get f i ;;
            raw_set b k x)
         (sf_raw (sf_n f)) ;;
  sf_done (sf_n f) b.

(* SnFunction.hpp 180-186 *)
Definition sf_inv (f : sfun) : outcome sfun :=
  b <- zfor 0 (sf_N f)
         (fun i b =>
            s <- sn_element (sf_n f) i ;;
            s <- p_inverse s ;;
            k <- sn_index (sf_n f) s ;;
            x <- sf_get f i ;;
            raw_set b k x)
         (sf_raw (sf_n f)) ;;
  sf_done (sf_n f) b.

(* SnFunction.hpp 166-178 *)
Definition sf_convolve (f g : sfun) : outcome sfun :=
  _ <- assert_ (sf_n g =? sf_n f) ;;
  b <- zfor 0 (sf_N f)
         (fun i b =>
            sigma <- sn_element (sf_n f) i ;;
            t <- zfor 0 (sf_N f)
                   (fun j t =>
                      e <- sn_element (sf_n f) j ;;
                      e <- p_inv e ;;
                      s <- p_mul sigma e ;;
                      x <- sf_at f s ;;
                      y <- sf_get g j ;;
                      Ret (t + x * y)%R) 0%R ;;
            raw_set b i t)
         (sf_raw (sf_n f)) ;;
  sf_done (sf_n f) b.
