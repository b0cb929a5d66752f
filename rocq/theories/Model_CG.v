(* Models the multiplicities of Sn/SnCGbank.hpp: coeff and CGproduct.  The float arithmetic of coeff is modelled in exact
   reals; the conversion of its result to int drops the fraction. *)
From Coq Require Import ZArith List Bool Reals.
From Verif Require Import Model_Base Model_Sn Model_Part Model_Comb Model_Class Model_Type Model_Char.
Import ListNotations.
Open Scope Z_scope.

(* float to int *)
Definition rtrunc (x : R) : Z := if Rle_dec 0 x then Int_part x else - Int_part (- x).

(* SnCGbank.hpp 41-44: the caches; the character bank is a global object these functions go through.  Lookups compare
   the keys with == . *)
Record cgbank := mkCG { cg_chars : list clev; cg_coeffs : list (list Z * list Z * list Z * Z); cg_taus : list (list Z * list Z * list (list Z * Z)) }.
Definition cg0 : cgbank := mkCG [] [] [].

Fixpoint co_find (m : list (list Z * list Z * list Z * Z)) (k : list Z * list Z * list Z) : option Z :=
  match m with
  | [] => None
  | (a, b, c, v) :: m' => let '(x, y, z) := k in if ip_eq a x && ip_eq b y && ip_eq c z then Some v else co_find m' k
  end.
Fixpoint ta_find (m : list (list Z * list Z * list (list Z * Z))) (k : list Z * list Z) : option (list (list Z * Z)) :=
  match m with
  | [] => None
  | (a, b, v) :: m' => let '(x, y) := k in if ip_eq a x && ip_eq b y then Some v else ta_find m' k
  end.

(* SnCGbank.hpp 58-80 *)
Definition cg_coeff (b : cgbank) (mu1 mu2 mu3 : part) : outcome (Z * cgbank) :=
  mus <- order3 ip_lt mu1 mu2 mu3 ;;
  match co_find (cg_coeffs b) mus with
  | Some v => Ret (v, b)
  | None =>
      let n := ip_getn mu1 in
      _ <- assert_ (ip_getn mu1 =? ip_getn mu2) ;;
      _ <- assert_ (ip_getn mu1 =? ip_getn mu3) ;;
      r <- cb_get (cg_chars b) mu1 ;; let '(ch1, cb) := r in
      r <- cb_get cb mu2 ;; let '(ch2, cb) := r in
      r <- cb_get cb mu3 ;; let '(ch3, cb) := r in
      t <- zfor 0 (zlen (cf_v ch1))
             (fun i t =>
                x <- cf_at ch1 i ;; y <- cf_at ch2 i ;; z <- cf_at ch3 i ;;
                c <- cclass n i ;; s <- class_size n c ;;
                Ret (t + x * y * z * IZR s)%R) 0%R ;;
      let t := (t / IZR (zfact n))%R in
      let '(a, b', c) := mus in
      Ret (rtrunc t, mkCG cb (cg_coeffs b ++ [(a, b', c, rtrunc t)]) (cg_taus b))
  end.

(* SnCGbank.hpp 83-99 *)
Definition cg_product (b : cgbank) (lambda1 lambda2 : part) : outcome (stype * cgbank) :=
  match ta_find (cg_taus b) (lambda1, lambda2) with
  | Some t => Ret (t, b)
  | None =>
      let n := ip_getn lambda1 in
      x <- ip_get lambda1 0 ;; y <- ip_get lambda2 0 ;;
      let limit := 2 * n - x - y in
      L <- integer_partitions n ;;
      r <- foldM (fun p st =>
             let '(tau, b) := st in
             z <- ip_get p 0 ;;
             if n - limit <=? z then
               r <- cg_coeff b lambda1 lambda2 p ;; let '(m, b) := r in
               if 0 <? m then tau <- ty_add tau p m ;; Ret (tau, b) else Ret (tau, b)
             else Ret (tau, b)) L ([], b) ;;
      let '(tau, b) := r in
      Ret (tau, mkCG (cg_chars b) (cg_coeffs b) (cg_taus b ++ [(lambda1, lambda2, tau)]))
  end.

(* SnCGbank.hpp 102-108 *)
Definition cg_product_types (b : cgbank) (tau1 tau2 : stype) : outcome (stype * cgbank) :=
  foldM (fun p st =>
    foldM (fun q st =>
      let '(R, b) := st in
      r <- cg_product b (fst p) (fst q) ;; let '(t, b) := r in
      R <- ty_add_type R t (snd p * snd q) ;;
      Ret (R, b)) tau2 st) tau1 ([], b).

(* the calls a user makes *)
Inductive cgq := GCoeff (mu1 mu2 mu3 : part) | GProd (lambda1 lambda2 : part) | GTypes (tau1 tau2 : stype).
Inductive cga := ACoeff (c : Z) | AType (t : stype).

Definition cgstep (q : cgq) (b : cgbank) : outcome (cga * cgbank) :=
  match q with
  | GCoeff x y z => r <- cg_coeff b x y z ;; Ret (ACoeff (fst r), snd r)
  | GProd x y => r <- cg_product b x y ;; Ret (AType (fst r), snd r)
  | GTypes x y => r <- cg_product_types b x y ;; Ret (AType (fst r), snd r)
  end.

Fixpoint cgrun (qs : list cgq) (b : cgbank) : outcome (list cga * cgbank) :=
  match qs with
  | [] => Ret ([], b)
  | q :: qs' => r <- cgstep q b ;; t <- cgrun qs' (snd r) ;; Ret (fst r :: fst t, snd t)
  end.
