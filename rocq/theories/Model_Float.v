(* Model of the floating point side of Sn/SnIrrepObj.hpp, Sn/SnCharacter.hpp and Sn/SnCGbank.hpp: the same loops as in
   Model_Irrep, Model_Char and Model_CG, with every operation on float and double rounded.
   The loops are written once for any arithmetic; [ieee] is the arithmetic of the machine: float is the IEEE format
   binary32, double is binary64, every operation rounds to nearest, ties to even (Coq.Floats.SpecFloat).  Operations are
   rounded one by one: no fused multiply-add, no extended precision.  The caches of the character bank and of the
   Clebsch-Gordan bank are left out here (Model_CharBank and Model_CG have them): a cached value is the value computed
   by the first request. *)
From Coq Require Import ZArith List Bool Floats.SpecFloat.
From Verif Require Import Model_Base Model_Perm Model_Part Model_Sn Model_Comb Model_Tab Model_Irrep Model_Class Model_Type Model_Char.
Import ListNotations.
Open Scope Z_scope.

(* the operations on float (fl) and double (db) the code performs; [ftoz] is the conversion of a float to int *)
Record arith := mkArith {
  fl : Type; db : Type;
  fz : Z -> fl; dz : Z -> db; fd : fl -> db; df : db -> fl;
  dadd : db -> db -> db; dsub : db -> db -> db; dmul : db -> db -> db; ddiv : db -> db -> db; dneg : db -> db; dsqrt : db -> db;
  fadd : fl -> fl -> fl; fmul : fl -> fl -> fl; fdiv : fl -> fl -> fl;
  ftoz : fl -> outcome Z }.

(* ---- the machine ---- *)

Definition sf_conv (prec emax : Z) (x : spec_float) : spec_float :=
  match x with
  | S754_finite s m e => binary_round prec emax s m e
  | _ => x
  end.

(* conversion of a float to int drops the fraction; infinities, NaN and numbers that do not fit an int of 32 bits have no
   value *)
Definition sf_trunc (x : spec_float) : outcome Z :=
  match x with
  | S754_zero _ => Ret 0
  | S754_finite s m e =>
      let a := if 0 <=? e then Zpos m * 2 ^ e else Zpos m / 2 ^ (- e) in
      let z := if s then - a else a in
      if (- 2 ^ 31 <=? z) && (z <? 2 ^ 31) then Ret z else UB
  | _ => UB
  end.

Definition ieee : arith :=
  {| fl := spec_float; db := spec_float;
     fz := fun z => binary_normalize 24 128 z 0 false;
     dz := fun z => binary_normalize 53 1024 z 0 false;
     fd := sf_conv 53 1024; df := sf_conv 24 128;
     dadd := SFadd 53 1024; dsub := SFsub 53 1024; dmul := SFmul 53 1024; ddiv := SFdiv 53 1024; dneg := SFopp; dsqrt := SFsqrt 53 1024;
     fadd := SFadd 24 128; fmul := SFmul 24 128; fdiv := SFdiv 24 128;
     ftoz := sf_trunc |}.

(* ---- the irreps ---- *)

Section Float.
  Variable F : arith.

  (* rtensor with two dimensions, a list of rows *)
  Record fmat := mkFmat { fm_n1 : Z; fm_rows : list (list (fl F)) }.
  Definition fget (A : fmat) (i j : Z) : outcome (fl F) := r <- rd (fm_rows A) i ;; rd r j.
  Definition fset (A : fmat) (i j : Z) (x : fl F) : outcome fmat :=
    r <- rd (fm_rows A) i ;; r <- wr r j x ;; l <- wr (fm_rows A) i r ;; Ret (mkFmat (fm_n1 A) l).
  Definition fident (d : Z) : fmat :=
    mkFmat d (map (fun i => map (fun j => if i =? j then fz F 1 else fz F 0) (zrange 0 d)) (zrange 0 d)).

  (* SnIrrepObj.hpp 430-452 *)
  Definition f_yor (o : irr) : outcome (list (option (Z * db F * db F))) :=
    let n := io_n o in
    let d := io_d o in
    if d * (n - 1) <? 0 then Throw else
    zfor 0 d
      (fun i b =>
         zfor 1 n
           (fun tau b =>
              let ix := i * (n - 1) + tau - 1 in
              t <- rd (io_tabs o) i ;;
              r <- yt_apply_transp t tau (tau + 1) ;;
              let '(t', delta) := r in
              if (delta =? 1) || (delta =? -1) then wr b ix (Some (-1, dz F delta, dz F 0))
              else wr b ix (Some (irr_index o t', ddiv F (dz F 1) (dz F delta),
                                  dsqrt F (dsub F (dz F 1) (ddiv F (dz F 1) (dz F (delta * delta)))))))
           b)
      (repeat None (Z.to_nat (d * (n - 1)))).

  (* SnIrrepObj.hpp 426-428 *)
  Definition f_yor_get (o : irr) (b : list (option (Z * db F * db F))) (tau t : Z) : outcome (Z * db F * db F) :=
    x <- rd b (t * (io_n o - 1) + tau - 1) ;;
    match x with Some v => Ret v | None => UB end.

  (* SnIrrepObj.hpp 177, 182, 183: the products and the sum are computed in double, set_value stores a float *)
  Definition f_scale (c1 : db F) (x : fl F) : fl F := df F (dmul F c1 (fd F x)).
  Definition f_row1 (c1 c2 : db F) (t x : fl F) : fl F := df F (dadd F (dmul F c1 (fd F t)) (dmul F c2 (fd F x))).
  Definition f_row2 (c1 c2 : db F) (t x : fl F) : fl F := df F (dadd F (dmul F (dneg F c1) (fd F x)) (dmul F c2 (fd F t))).

  (* SnIrrepObj.hpp 166-191: apply_left(A,tau); [yor] is the table computeYOR leaves in YORt, YOR1 and YOR2 *)
  Definition f_apply (o : irr) (yor : list (option (Z * db F * db F))) (tau : Z) (A : fmat) : outcome fmat :=
    _ <- assert_ (zlen (fm_rows A) =? io_d o) ;;
    r <- zfor 0 (io_d o)
           (fun i st =>
              let '(A, done) := st in
              dn <- rd done i ;;
              if dn : bool then Ret (A, done)
              else
                y <- f_yor_get o yor tau i ;;
                let '(i2, c1, c2) := y in
                if i2 =? -1 then
                  A <- zfor 0 (fm_n1 A) (fun j A => x <- fget A i j ;; fset A i j (f_scale c1 x)) A ;;
                  Ret (A, done)
                else
                  A <- zfor 0 (fm_n1 A)
                         (fun j A =>
                            t <- fget A i j ;;
                            x <- fget A i2 j ;;
                            A <- fset A i j (f_row1 c1 c2 t x) ;;
                            x <- fget A i2 j ;;
                            fset A i2 j (f_row2 c1 c2 t x)) A ;;
                  done <- wr done i2 true ;;
                  Ret (A, done))
           (A, repeat false (Z.to_nat (io_d o))) ;;
    Ret (fst r).

  (* SnIrrepObj.hpp 94-98: operator()(sigma) *)
  Definition f_matrix (o : irr) (sigma : perm) : outcome fmat :=
    yor <- f_yor o ;;
    act_perm (f_apply o yor) (io_n o) sigma (fident (io_d o)).

  (* SnIrrepObj.hpp 100-114, with the table computed before *)
  Definition f_character_with (o : irr) (yor : list (option (Z * db F * db F))) (mu : part) : outcome (fl F) :=
    r <- zfor 0 (zlen mu)
           (fun i st =>
              let '(R, a) := st in
              m <- rd mu i ;;
              R <- act_cycle (f_apply o yor) (mkCyc a (a + m - 1)) R ;;
              Ret (R, a + m))
           (fident (io_d o), 1) ;;
    zfor 0 (io_d o) (fun i t => x <- fget (fst r) i i ;; Ret (fadd F t x)) (fz F 0).
  Definition f_character (o : irr) (mu : part) : outcome (fl F) := yor <- f_yor o ;; f_character_with o yor mu.

  (* SnCharBank.hpp 34-49, SnCharacter.hpp 31-32: the values of the character of an irrep, one for each class *)
  Definition f_values (lambda : part) : outcome (list (fl F)) :=
    o <- irr_new lambda ;;
    yor <- f_yor o ;;
    L <- integer_partitions (ip_getn lambda) ;;
    zfor 0 (zlen L) (fun i v => c <- rd L i ;; x <- f_character_with o yor c ;; Ret (v ++ [x])) [].

  (* SnCGbank.hpp 70-78: ch1(i)*ch2(i)*ch3(i)*G.class_size(i), where class_size is an int, added up in a float, divided
     by the int G.size() and converted to int *)
  Definition f_coeff_of (n : Z) (v1 v2 v3 : list (fl F)) : outcome Z :=
    t <- zfor 0 (zlen v1)
           (fun i t =>
              x <- rd v1 i ;; y <- rd v2 i ;; z <- rd v3 i ;;
              c <- cclass n i ;; s <- class_size n c ;;
              Ret (fadd F t (fmul F (fmul F (fmul F x y) z) (fz F s)))) (fz F 0) ;;
    ftoz F (fdiv F t (fz F (zfact n))).
  Definition f_coeff (mu1 mu2 mu3 : part) : outcome Z :=
    let n := ip_getn mu1 in
    _ <- assert_ (ip_getn mu1 =? ip_getn mu2) ;;
    _ <- assert_ (ip_getn mu1 =? ip_getn mu3) ;;
    v1 <- f_values mu1 ;; v2 <- f_values mu2 ;; v3 <- f_values mu3 ;;
    f_coeff_of n v1 v2 v3.

  (* SnCGbank.hpp 83-99: CGproduct of two irreps, as the list of the irreps with their multiplicities in the order in
     which they are found *)
  Definition f_product (lambda1 lambda2 : part) : outcome (list (part * Z)) :=
    let n := ip_getn lambda1 in
    x <- ip_get lambda1 0 ;; y <- ip_get lambda2 0 ;;
    let limit := 2 * n - x - y in
    L <- integer_partitions n ;;
    foldM (fun p tau =>
             z <- ip_get p 0 ;;
             if n - limit <=? z then
               m <- f_coeff lambda1 lambda2 p ;;
               if 0 <? m then Ret (tau ++ [(p, m)]) else Ret tau
             else Ret tau) L [].
End Float.
