(* Model of the printed forms: the str and repr members of combinatorial/*.hpp, Sn/*.hpp and groups/*.hpp, and the
   printing of vectors in include/Snob2_base.hpp.

   A string is a Coq string.  std::to_string and operator<< of an int both write the decimal form, dec.  endl is
   a newline.  A float is written by the stream in a format that is a parameter here (fmt). *)
From Coq Require Import String Ascii Decimal DecimalString ZArith Reals List Bool.
From Verif Require Import Model_Base Model_Perm Model_Sn Model_Part Model_Tab Model_Type Model_Fun Model_Group Model_Comb Model_FFT Model_Char.
Import ListNotations.
Open Scope Z_scope.

Notation "a +++ b" := (String.append a b) (at level 60, right associativity).

(* operator<<(ostream&,int) and std::to_string *)
Definition dec (z : Z) : string := NilZero.string_of_int (Z.to_int z).
Definition nl : string := String (ascii_of_nat 10) EmptyString.

(* combinatorial/Permutation.hpp 238-244; SnElement is a Permutation (Sn/SnElement.hpp 24).  The argument indent is
   not used. *)
Definition perm_str (indent : string) (p : perm) : outcome string :=
  s <- zfor 0 (zlen p) (fun i s => x <- rd p i ;; Ret (s +++ (dec x +++ " ")))%string "[ "%string ;;
  Ret (s +++ "]")%string.

(* combinatorial/ContiguousCycle.hpp 39-41, Transposition.hpp 41-43 *)
Definition cycle_str (indent : string) (a b : Z) : string := (indent +++ "CCycle(" +++ dec a +++ "," +++ dec b +++ ")")%string.
Definition transp_str (indent : string) (i j : Z) : string := (indent +++ "(" +++ dec i +++ "," +++ dec j +++ ")")%string.

(* combinatorial/IntegerPartition.hpp 238-247.  The argument indent is not used. *)
Definition part_str (indent : string) (l : part) : outcome string :=
  s <- zfor 0 (zlen l)
         (fun i s => x <- rd l i ;;
            let s := (s +++ dec x)%string in
            Ret (if i <? zlen l - 1 then s +++ ","%string else s)) "["%string ;;
  Ret (s +++ "]")%string.

(* include/Snob2_base.hpp 58-64: v.size()-1 is computed modulo 2^64, and compared as such with the int i *)
Definition vec_str (v : list Z) : outcome string :=
  s <- zfor 0 ((zlen v - 1) mod 2 ^ 64) (fun i s => x <- rd v i ;; Ret (s +++ (dec x +++ ",")))%string "("%string ;;
  if zlen v >? 0 then x <- rd v (zlen v - 1) ;; Ret (s +++ dec x +++ ")")%string else Ret s.

(* combinatorial/YoungTableau.hpp 134-142 *)
Definition tab_str (indent : string) (t : tab) : outcome string :=
  zfor 0 (zlen t)
    (fun i s =>
       row <- rd t i ;;
       s <- zfor 0 (zlen row) (fun j s => x <- rd row j ;; Ret (s +++ (dec x +++ " "))%string) (s +++ indent) ;;
       Ret (s +++ nl)) ""%string.

(* combinatorial/StandardYoungTableaux.hpp 68-70, Sn/SnCClass.hpp 41-43, Sn/SnIrrep.hpp 129-131, Sn/Sn.hpp 187-189 *)
Definition syt_str (indent : string) (l : part) : outcome string := p <- part_str "" l ;; Ret (indent +++ "StandardYoungTableaux" +++ p)%string.
Definition cclass_str (indent : string) (l : part) : outcome string := p <- part_str "" l ;; Ret (indent +++ "SnCClass" +++ p)%string.
Definition irrep_str (indent : string) (l : part) : outcome string := p <- part_str "" l ;; Ret ("SnIrrep(" +++ p +++ ")")%string.
Definition sn_str (indent : string) (n : Z) : string := ("Sn(" +++ dec n +++ ")")%string.

(* Sn/SnType.hpp 110-120.  The argument indent is not used. *)
Definition type_str (indent : string) (t : stype) : outcome string :=
  r <- foldM (fun p st =>
                let '(i, s) := st in
                q <- part_str "" (fst p) ;;
                let s := (s +++ q +++ ":" +++ dec (snd p))%string in
                Ret (i + 1, if i + 1 <? zlen t then (s +++ ",")%string else s)) t (0, "("%string) ;;
  Ret (snd r +++ ")")%string.

(* Sn/SnIsotypicObj.hpp 36-40, Sn/SnRepresentationObj.hpp 109-119 *)
Definition iso_str (indent : string) (x : iso) : outcome string := p <- part_str "" (is_lambda x) ;; Ret (p +++ ":" +++ dec (is_m x))%string.
Definition rep_str (indent : string) (r : list (list Z * iso)) : outcome string :=
  x <- foldM (fun p st =>
                let '(i, s) := st in
                q <- iso_str "" (snd p) ;;
                let s := s +++ q in
                Ret (i + 1, if i + 1 <? zlen r then (s +++ ",")%string else s)) r (0, "SnRepresentationObj("%string) ;;
  Ret (snd x +++ ")" +++ nl)%string.

(* Sn/SnFunction.hpp 196-204: N is the number of values, n the group whose elements are named *)
Definition fun_str (fmt : R -> string) (indent : string) (f : sfun) : outcome string :=
  zfor 0 (sf_N f)
    (fun i s =>
       e <- sn_element (sf_n f) i ;;
       q <- perm_str "" e ;;
       x <- rd (sf_v f) i ;;
       Ret (s +++ q +++ " : " +++ fmt x +++ nl)%string) ""%string.

(* Sn/SnOverSmFunction.hpp 87-94 *)
Definition qfun_str (fmt : R -> string) (indent : string) (f : qfun) : outcome string :=
  zfor 0 (zlen (qf_v f)) (fun i s => x <- rd (qf_v f) i ;; Ret (s +++ fmt x +++ nl)) ""%string.

(* Sn/SnClassFunction.hpp 98-106, with the classes of Sn/SnObj.hpp 133-136 printed by Sn/SnCClass.hpp 41-43 *)
Definition cfun_str (fmt : R -> string) (indent : string) (f : cfun) : outcome string :=
  zfor 0 (zlen (cf_v f))
    (fun i s =>
       c <- cclass (cf_n f) i ;;
       q <- cclass_str "" c ;;
       x <- rd (cf_v f) i ;;
       Ret (s +++ indent +++ q +++ " : " +++ fmt x +++ nl)%string) ""%string.

(* groups/CyclicGroup.hpp 66-68, CyclicGroupElement.hpp 52-54, DihedralGroup.hpp 77-79, DihedralGroupElement.hpp 54-56 *)
Definition cyclic_str (n : Z) : string := ("CyclicGroup(" +++ dec n +++ ")")%string.
Definition celt_str (x : celt) : string := ("Cyclic(" +++ dec (c_n x) +++ "," +++ dec (c_i x) +++ ")")%string.
Definition dihedral_str (n : Z) : string := ("DihedralGroup(" +++ dec n +++ ")")%string.
Definition delt_str (x : delt) : string := ("Dihedral(" +++ dec (d_n x) +++ "," +++ dec (d_i x) +++ "," +++ dec (d_s x) +++ ")")%string.

(* groups/ProductGroupElement.hpp 50-52, ProductGroupIrrep.hpp 57-59 *)
Definition pelt_str {A B} (s1 : A -> string) (s2 : B -> string) (x : A * B) : string := ("(" +++ s1 (fst x) +++ "," +++ s2 (snd x) +++ ")")%string.

(* groups/ProductGroup.hpp 76-78: return "Product<"+g1.str(),","+g2.str()+">".  The comma between the first two
   strings is the comma operator: what is before it is computed and dropped. *)
Definition pgroup_str (s1 s2 : string) : string := let _ := ("Product<" +++ s1)%string in ("," +++ s2 +++ ">")%string.
