(* Models Sn/SnPartB.hpp, Sn/SnVecB.hpp and the Clebsch-Gordan product of batched vectors in Sn/SnCGbank.hpp.
   A batched part is a tensor with one slice for each member of the batch.  SnVecB is cnine's associative_container:
   here the list of parts in order of insertion, found by comparing partitions.  cnine is not in the repository;
   reading or writing outside a tensor is undefined, and so is adding tensors of different sizes. *)
From Coq Require Import ZArith List Bool Reals.
From Verif Require Import Model_Base Model_Perm Model_Part Model_Comb Model_Tab Model_Irrep Model_Type Model_FFT Model_Vec Model_Char Model_CG Model_CGvec.
Import ListNotations.
Open Scope Z_scope.

(* SnPartB.hpp 21-24: the irrep and the tensor of size b x d x m *)
Record partb := mkPartb { pb_irr : irr; pb_t : ten }.

(* SnPartB.hpp 65-69 with fill::zero, and 148-149 *)
Definition pb_zero (b : Z) (lambda : part) (m : Z) : outcome partb :=
  o <- irr_new lambda ;;
  if (m <? 0) || (b <? 0) then UB else Ret (mkPartb o (mkTen b (io_d o) m (fun _ _ _ => 0%R))).

(* SnPartB.hpp 238-248: getb, getd, getm *)
Definition pb_b (P : partb) : Z := t_n0 (pb_t P).
Definition pb_d (P : partb) : Z := t_n1 (pb_t P).
Definition pb_m (P : partb) : Z := t_n2 (pb_t P).

(* SnPartB.hpp 291-300: apply(sigma), and in place *)
Definition pb_apply (sigma : perm) (P : partb) : outcome partb :=
  T <- irr_mid_perm (pb_irr P) sigma (pb_t P) ;; Ret (mkPartb (pb_irr P) T).
(* SnPartB.hpp 302-311: apply(cyc), and in place *)
Definition pb_apply_cycle (c : ccycle) (P : partb) : outcome partb :=
  T <- irr_mid_cycle (pb_irr P) c (pb_t P) ;; Ret (mkPartb (pb_irr P) T).
(* SnPartB.hpp 313-317: apply(Transposition) *)
Definition pb_apply_transp (x : transposition) (P : partb) : outcome partb :=
  T <- irr_mid_transp (pb_irr P) x (pb_t P) ;; Ret (mkPartb (pb_irr P) T).

(* SnVecB.hpp 41-45 with fill::zero, and 84-86 *)
Definition vb_zero (b : Z) (tau : list (list Z * Z)) : outcome (list partb) :=
  foldM (fun p R => P <- pb_zero b (fst p) (snd p) ;; Ret (R ++ [P])) tau [].

(* cnine::associative_container: where the part for lambda is, -1 if there is none *)
Fixpoint vb_index_from (v : list partb) (lambda : part) (i : Z) : Z :=
  match v with
  | [] => -1
  | P :: v' => if ip_eq (io_lambda (pb_irr P)) lambda then i else vb_index_from v' lambda (i + 1)
  end.
Definition vb_index (v : list partb) (lambda : part) : Z := vb_index_from v lambda 0.

(* SnVecB.hpp 131-134: getb() *)
Definition vb_getb (v : list partb) : outcome Z :=
  match v with [] => Abort | P :: _ => Ret (pb_b P) end.

(* SnVecB.hpp 142-147: get_type() *)
Definition vb_type (v : list partb) : outcome (list (list Z * Z)) :=
  foldM (fun P R => ty_set R (io_lambda (pb_irr P)) (pb_m P)) v [].

(* SnVecB.hpp 153-161: apply(sigma) *)
Definition vb_apply (sigma : perm) (v : list partb) : outcome (list partb) :=
  foldM (fun P R => A <- pb_apply sigma P ;; Ret (R ++ [A])) v [].
(* SnVecB.hpp 175-180: apply(Transposition) *)
Definition vb_apply_transp (x : transposition) (v : list partb) : outcome (list partb) :=
  foldM (fun P R => A <- pb_apply_transp x P ;; Ret (R ++ [A])) v [].

(* target.block3(0,i,j,b,h,w).add(source.block3(0,i',j',b,h,w)), where b is the size of both batches *)
Definition block3_fits (T : ten) (i j h w : Z) : bool :=
  (0 <=? i) && (i + h <=? t_n1 T) && (0 <=? j) && (j + w <=? t_n2 T).
Definition block3_add (A : ten) (i j : Z) (B : ten) (i' j' h w : Z) : outcome ten :=
  if (t_n0 A =? t_n0 B) && block3_fits A i j h w && block3_fits B i' j' h w then
    Ret (mkTen (t_n0 A) (t_n1 A) (t_n2 A) (fun x a b =>
      if inrange (a - i) h && inrange (b - j) w then (t_at A x a b + t_at B x (a - i + i')%Z (b - j + j')%Z)%R else t_at A x a b))
  else UB.

(* SnVecB.hpp 194-216: accumulate_up *)
Definition vb_accumulate_up (R : list partb) (offs : list (list Z * Z)) (sub : list partb) (tau : list (list Z * Z)) :
    outcome (list partb * list (list Z * Z)) :=
  r <- foldM (fun p st =>
         let '(R, offs, sub_offs) := st in
         let lambda := fst p in
         let ncols := snd p in
         let k := vb_index R lambda in
         _ <- assert_ (0 <=? k) ;;
         target <- rd R k ;;
         c <- ty_call offs lambda ;;
         let '(coffs, offs) := c in
         mus <- ip_foreach_sub lambda ;;
         s <- foldM (fun mu st =>
                let '(D, roffs, sub_offs) := st in
                let ix := vb_index sub mu in
                _ <- assert_ (0 <=? ix) ;;
                src <- rd sub ix ;;
                let nrows := pb_d src in
                c <- ty_call sub_offs mu ;;
                let '(so, sub_offs) := c in
                D <- block3_add D roffs coffs (pb_t src) 0 so nrows ncols ;;
                sub_offs <- ty_add sub_offs mu ncols ;;
                Ret (D, roffs + nrows, sub_offs)) mus (pb_t target, 0, sub_offs) ;;
         let '(D, _, sub_offs) := s in
         R <- wr R k (mkPartb (pb_irr target) D) ;;
         offs <- ty_add offs lambda ncols ;;
         Ret (R, offs, sub_offs)) tau (R, offs, []) ;;
  let '(R, offs, _) := r in Ret (R, offs).

(* SnVecB.hpp 226-238: down *)
Definition vb_down (v : partb) : outcome (list partb) :=
  let m := pb_m v in
  let b := pb_b v in
  mus <- ip_foreach_sub (io_lambda (pb_irr v)) ;;
  r <- foldM (fun lambda st =>
         let '(R, offs) := st in
         P <- pb_zero b lambda m ;;
         T <- block3_add (pb_t P) 0 0 (pb_t v) offs 0 (pb_d P) m ;;
         Ret (R ++ [mkPartb (pb_irr P) T], offs + pb_d P)) mus ([], 0) ;;
  Ret (fst r).

(* SnVecB.hpp 282-297 and SnPartB.hpp 338-341: sameb *)
Definition sameb2 (x y : Z) : outcome Z := _ <- assert_ (x =? y) ;; Ret x.
Definition sameb3 (x y z : Z) : outcome Z := _ <- assert_ (x =? y) ;; _ <- assert_ (x =? z) ;; Ret x.

(* rtensor::inc(i,j,k,x) *)
Definition tinc (A : ten) (i j k : Z) (x : R) : outcome ten := v <- tget A i j k ;; tset A i j k (v + x)%R.

(* the product of a tensor with a matrix, over the last index *)
Definition ten_mul (A : ten) (B : mat) : outcome ten :=
  if t_n2 A =? m_n0 B then Ret (mkTen (t_n0 A) (t_n1 A) (m_n1 B) (fun x i j => acc_sum (t_n2 A) (fun k => (t_at A x i k * m_at B k j)%R)))
  else UB.

(* SnCGbank.hpp 335-343: add_CGprod, with accumulate_CGprod as a parameter *)
Definition cgb_add (acc : cgbank -> list partb -> stype -> partb -> partb -> outcome (list partb * stype * cgbank))
    (b : cgbank) (R : list partb) (x y : list partb) : outcome (list partb * cgbank) :=
  r <- foldM (fun p st =>
         foldM (fun q st => let '(R, offs, b) := st in acc b R offs p q) y st) x (R, [], b) ;;
  let '(R, _, b) := r in Ret (R, b).

(* SnCGbank.hpp 320-324: CGproduct(SnVecB,SnVecB) *)
Definition cgb_vec_with (acc : cgbank -> list partb -> stype -> partb -> partb -> outcome (list partb * stype * cgbank))
    (b : cgbank) (x y : list partb) : outcome (list partb * cgbank) :=
  bx <- vb_getb x ;; by_ <- vb_getb y ;; nb <- sameb2 bx by_ ;;
  tx <- vb_type x ;; ty <- vb_type y ;;
  r <- cg_product_types b tx ty ;; let '(t, b) := r in
  R <- vb_zero nb t ;;
  cgb_add acc b R x y.

(* SnCGbank.hpp 346-380: accumulate_CGprod(R,offs,x,y) *)
Fixpoint cgb_acc (F : ftable) (fuel : nat) (b : cgbank) (R : list partb) (offs : stype) (x y : partb) : outcome (list partb * stype * cgbank) :=
  match fuel with
  | O => UB
  | S fuel' =>
      let lambda1 := io_lambda (pb_irr x) in
      let lambda2 := io_lambda (pb_irr y) in
      bR <- vb_getb R ;; nb <- sameb3 bR (pb_b x) (pb_b y) ;;
      let n := io_n (pb_irr x) in
      _ <- assert_ (io_n (pb_irr y) =? n) ;;
      if n =? 1 then
        let I := pb_m x in
        let J := pb_m y in
        R <- zfor 0 nb (fun k R => zfor 0 I (fun i R => zfor 0 J (fun j R =>
               u <- tget (pb_t x) k 0 i ;; v <- tget (pb_t y) k 0 j ;;
               P <- rd R 0 ;; T <- tinc (pb_t P) k 0 (i * J + j) (u * v)%R ;;
               wr R 0 (mkPartb (pb_irr P) T)) R) R) R ;;
        offs <- ty_add offs [1] (I * J) ;;
        Ret (R, offs, b)
      else
        xsub <- vb_down x ;;
        ysub <- vb_down y ;;
        r <- cgb_vec_with (cgb_acc F fuel') b xsub ysub ;; let '(sub, b) := r in
        r <- cg_factors F b lambda1 lambda2 ;; let '(fs, b) := r in
        tilde <- foldM (fun p st =>
                   let ix := vb_index sub (fst p) in
                   _ <- assert_ (0 <=? ix) ;;
                   P <- rd sub ix ;;
                   o <- irr_new (fst p) ;;
                   T <- ten_mul (pb_t P) (snd p) ;;
                   Ret (st ++ [mkPartb o T])) fs [] ;;
        r <- cg_product b lambda1 lambda2 ;; let '(t, b) := r in
        r <- vb_accumulate_up R offs tilde t ;;
        Ret (fst r, snd r, b)
  end.

(* SnCGbank.hpp 320-324 and 327-332: the two entry points *)
Definition cgb_vec (F : ftable) (b : cgbank) (x y : list partb) : outcome (list partb * cgbank) :=
  cgb_vec_with (fun b R offs p q => cgb_acc F (Z.to_nat (io_n (pb_irr p))) b R offs p q) b x y.

Definition cgb_part (F : ftable) (b : cgbank) (x y : partb) : outcome (list partb * cgbank) :=
  nb <- sameb2 (pb_b x) (pb_b y) ;;
  r <- cg_product b (io_lambda (pb_irr x)) (io_lambda (pb_irr y)) ;; let '(t, b) := r in
  R <- vb_zero nb t ;;
  r <- cgb_acc F (Z.to_nat (io_n (pb_irr x))) b R [] x y ;;
  let '(R, _, b) := r in Ret (R, b).

(* the calls a user makes: those of Model_CGvec and products of batched vectors and of batched parts *)
Inductive bvq := BOne (q : cvq) | BVec (x y : list partb) | BPart (x y : partb).
Inductive bva := ROne (a : cva) | RVecB (R : list partb).

Definition bvstep (F : ftable) (q : bvq) (b : cgbank) : outcome (bva * cgbank) :=
  match q with
  | BOne q => r <- cvstep F q b ;; Ret (ROne (fst r), snd r)
  | BVec x y => r <- cgb_vec F b x y ;; Ret (RVecB (fst r), snd r)
  | BPart x y => r <- cgb_part F b x y ;; Ret (RVecB (fst r), snd r)
  end.

Fixpoint bvrun (F : ftable) (qs : list bvq) (b : cgbank) : outcome (list bva * cgbank) :=
  match qs with
  | [] => Ret ([], b)
  | q :: qs' => r <- bvstep F q b ;; t <- bvrun F qs' (snd r) ;; Ret (fst r :: fst t, snd t)
  end.
