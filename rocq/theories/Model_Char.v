(* Models Sn/SnCharBank.hpp, Sn/SnCharacter.hpp, Sn/SnClassFunction.hpp, Sn/Sn_CharacterHelper.hpp and the characters
   of Sn/Sn.hpp.  Values are exact reals.  The group object and the irrep objects these functions ask the group bank
   for do not depend on the history (C25, C27, C28), so they are computed here instead of fetched. *)
From Coq Require Import ZArith List Bool Reals.
From Verif Require Import Model_Base Model_Sn Model_Part Model_Comb Model_Tab Model_Irrep.
Import ListNotations.
Open Scope Z_scope.

(* SnClassFunction.hpp 20-34: the group number and one value for each class *)
Record cfun := mkCfun { cf_n : Z; cf_v : list R }.

(* SnObj.hpp 135-138: get_Sn(n)->cclass(i) *)
Definition cclass (n i : Z) : outcome part := L <- integer_partitions n ;; rd L i.

(* SnObj.hpp 140-143: get_Sn(n)->index(lambda): cclass_map[lambda], 0 for a key the map does not have *)
Fixpoint cindex_in (L : list (list Z)) (lambda : part) (i : Z) : Z :=
  match L with [] => 0 | l :: L' => if ip_eq l lambda then i else cindex_in L' lambda (i + 1) end.
Definition cindex (n : Z) (lambda : part) : outcome Z := L <- integer_partitions n ;; Ret (cindex_in L lambda 0).

(* SnClassFunction.hpp 70-72 and 82-84 *)
Definition cf_at (f : cfun) (i : Z) : outcome R := rd (cf_v f) i.
(* SnClassFunction.hpp 66-68 and 74-80 *)
Definition cf_atl (f : cfun) (lambda : part) : outcome R := i <- cindex (ip_getn lambda) lambda ;; cf_at f i.
(* SnClassFunction.hpp 86-88 and 90-92 *)
Definition cf_set (f : cfun) (i : Z) (v : R) : outcome cfun := w <- wr (cf_v f) i v ;; Ret (mkCfun (cf_n f) w).
Definition cf_setl (f : cfun) (lambda : part) (v : R) : outcome cfun := i <- cindex (ip_getn lambda) lambda ;; cf_set f i v.
(* SnClassFunction.hpp 36-37 and 46-47: zero *)
Definition cf_zero (n : Z) : outcome cfun := L <- integer_partitions n ;; Ret (mkCfun n (repeat 0%R (length L))).

(* SnCharBank.hpp 39-44: a raw class function, then one value for each class *)
Definition char_new (n : Z) (lambda : part) : outcome cfun :=
  L <- integer_partitions n ;;
  o <- irr_new lambda ;;
  b <- zfor 0 (zlen L) (fun i b => c <- cclass n i ;; x <- irr_character o c ;; wr b i (Some x)) (repeat None (length L)) ;;
  v <- freeze b ;;
  Ret (mkCfun n v).

(* SnCharBank.hpp 20-32: cnine::indexed_map, a map that also numbers its entries in the order of insertion *)
Record clev := mkClev { cl_n : Z; cl_chars : list (list Z * cfun) }.

Fixpoint im_get (m : list (list Z * cfun)) (lambda : part) : option cfun :=
  match m with [] => None | (l, c) :: m' => if ip_eq l lambda then Some c else im_get m' lambda end.

(* SnCharBank.hpp 34-48: SnCharBankLevel::get_character(lambda) *)
Definition cl_get (v : clev) (lambda : part) : outcome (cfun * clev) :=
  _ <- assert_ (ip_getn lambda =? cl_n v) ;;
  match im_get (cl_chars v) lambda with
  | Some c => Ret (c, v)
  | None => c <- char_new (cl_n v) lambda ;; Ret (c, mkClev (cl_n v) (cl_chars v ++ [(lambda, c)]))
  end.

(* SnCharBank.hpp 50-52: SnCharBankLevel::get_character(i) *)
Definition cl_at (v : clev) (i : Z) : outcome cfun := p <- rd (cl_chars v) i ;; Ret (snd p).

(* SnCharBank.hpp 54-58 *)
Definition cl_make_all (v : clev) : outcome clev :=
  L <- integer_partitions (cl_n v) ;;
  foldM (fun l v => r <- cl_get v l ;; Ret (snd r)) L v.

(* SnCharBank.hpp 90-98: get_level(n), and 79-88, where the level is reached the same way.  n-1 is compared as an
   unsigned number, so n=0 goes on to read levels[-1]. *)
Definition cb_grow (b : list clev) (n : Z) : outcome (list clev) :=
  if (n - 1 <? zlen b) && (1 <=? n) then Ret b
  else if n <? 1 then UB
  else Ret (b ++ map (fun i => mkClev i []) (zrange (zlen b + 1) (n + 1))).

Definition cb_level (b : list clev) (n : Z) : outcome (clev * list clev) :=
  b <- cb_grow b n ;; v <- rd b (n - 1) ;; Ret (v, b).

(* SnCharBank.hpp 79-88: get_character(lambda) *)
Definition cb_get (b : list clev) (lambda : part) : outcome (cfun * list clev) :=
  r <- cb_level b (ip_getn lambda) ;; let '(v, b) := r in
  r <- cl_get v lambda ;; let '(c, v) := r in
  b <- wr b (ip_getn lambda - 1) v ;;
  Ret (c, b).

(* the calls a user makes *)
Inductive chq :=
| ChNew (lambda : part)          (* SnCharacter(lambda), Sn(n).character(lambda): SnCharacter.hpp 31-32, Sn.hpp 178-180 *)
| ChOf (n : Z) (lambda : part)   (* Sn(n).characters[lambda]: Sn_CharacterHelper.hpp 51-54 *)
| ChAt (n i : Z)                 (* Sn(n).characters[i]: Sn_CharacterHelper.hpp 46-49 *)
| ChNo (n i : Z).                (* Sn(n).character(i): Sn.hpp 173-175 *)

(* characters[i] makes all the characters of the level first; character(i) asks for the partition {n} *)
Definition chstep (q : chq) (b : list clev) : outcome (cfun * list clev) :=
  match q with
  | ChNew lambda => cb_get b lambda
  | ChOf n lambda =>
      r <- cb_level b n ;; let '(v, b) := r in
      r <- cl_get v lambda ;; let '(c, v) := r in
      b <- wr b (n - 1) v ;; Ret (c, b)
  | ChAt n i =>
      r <- cb_level b n ;; let '(v, b) := r in
      v <- cl_make_all v ;;
      c <- cl_at v i ;;
      b <- wr b (n - 1) v ;; Ret (c, b)
  | ChNo n i => cb_get b (ip_row n)
  end.

Fixpoint chrun (qs : list chq) (b : list clev) : outcome (list cfun * list clev) :=
  match qs with
  | [] => Ret ([], b)
  | q :: qs' => r <- chstep q b ;; t <- chrun qs' (snd r) ;; Ret (fst r :: fst t, snd t)
  end.
