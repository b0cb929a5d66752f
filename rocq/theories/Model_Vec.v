(* Models Sn/SnVec.hpp and the operations of Sn/SnPart.hpp it uses.
   SnVec::parts is cnine's indexed_mapB: here the list of parts in order of insertion, found by comparing
   partitions.  cnine is not in the repository; reading or writing outside a tensor is undefined. *)
From Coq Require Import ZArith List Bool Reals.
From Verif Require Import Model_Base Model_Perm Model_Part Model_Comb Model_Tab Model_Irrep Model_Type Model_FFT.
Import ListNotations.
Open Scope Z_scope.

(* rtensor::inc(i,j,x) *)
Definition minc (A : mat) (i j : Z) (x : R) : outcome mat := v <- mget A i j ;; mset A i j (v + x)%R.

(* SnPart.hpp 44-48 with fill::zero.  Tensors of negative size are undefined. *)
Definition sp_zero (lambda : part) (m : Z) : outcome spart :=
  o <- irr_new lambda ;;
  if m <? 0 then UB else Ret (mkSpart o (mkMat (io_d o) m (fun _ _ => 0%R))).

(* SnPart.hpp 177-183: add_to_block; A is the part, M the argument *)
Definition sp_add_to_block (A : mat) (ioffs joffs : Z) (M : mat) : outcome mat :=
  zfor 0 (m_n0 M) (fun i A => zfor 0 (m_n1 M) (fun j A =>
    x <- mget M i j ;; minc A (i + ioffs) (j + joffs) x) A) A.

(* SnPart.hpp 185-191: add_block_to; A is the part, the new M is returned *)
Definition sp_add_block_to (A : mat) (ioffs joffs : Z) (M : mat) (c : R) : outcome mat :=
  let J := m_n1 M in
  zfor 0 (m_n0 M) (fun i M => zfor 0 J (fun j M =>
    x <- mget A (i + ioffs) (j + joffs) ;; minc M i j (x * c)%R) M) M.

(* SnPart.hpp 193-198: add_to_block_block *)
Definition sp_add_to_block_block (A : mat) (ioffs joffs : Z) (M : mat) (io jo I J : Z) : outcome mat :=
  zfor 0 I (fun i A => zfor 0 J (fun j A =>
    x <- mget M (i + io) (j + jo) ;; minc A (i + ioffs) (j + joffs) x) A) A.

(* SnVec.hpp 37-40 with fill::zero *)
Definition sv_zero (tau : list (list Z * Z)) : outcome (list spart) :=
  foldM (fun p R => P <- sp_zero (fst p) (snd p) ;; Ret (R ++ [P])) tau [].

(* SnVec.hpp 109-113: index(lambda) *)
Fixpoint sv_index_from (v : list spart) (lambda : part) (i : Z) : Z :=
  match v with
  | [] => -1
  | P :: v' => if ip_eq (io_lambda (sp_irr P)) lambda then i else sv_index_from v' lambda (i + 1)
  end.
Definition sv_index (v : list spart) (lambda : part) : Z := sv_index_from v lambda 0.

(* SnVec.hpp 104-107: getn() *)
Definition sv_getn (v : list spart) : outcome Z :=
  match v with [] => Abort | P :: _ => Ret (ip_getn (io_lambda (sp_irr P))) end.

(* SnVec.hpp 115-120: get_type() *)
Definition sv_type (v : list spart) : outcome (list (list Z * Z)) :=
  foldM (fun P R => ty_set R (io_lambda (sp_irr P)) (m_n1 (sp_mat P))) v [].

(* SnVec.hpp 126-134, and 144-148 in place: apply(sigma) *)
Definition sv_apply (sigma : perm) (v : list spart) : outcome (list spart) :=
  foldM (fun P R => A <- irr_apply_perm (sp_irr P) sigma (sp_mat P) ;; Ret (R ++ [mkSpart (sp_irr P) A])) v [].

(* SnVec.hpp 150-154: apply_inplace(cyc) *)
Definition sv_apply_cycle (c : ccycle) (v : list spart) : outcome (list spart) :=
  foldM (fun P R => A <- act_cycle (irr_apply (sp_irr P)) c (sp_mat P) ;; Ret (R ++ [mkSpart (sp_irr P) A])) v [].

(* SnVec.hpp 156-160: apply_inplace_inv(cyc) *)
Definition sv_apply_cycle_inv (c : ccycle) (v : list spart) : outcome (list spart) :=
  foldM (fun P R => A <- act_cycle_inv (irr_apply (sp_irr P)) c (sp_mat P) ;; Ret (R ++ [mkSpart (sp_irr P) A])) v [].

(* SnVec.hpp 166-170: add(y); rtensor::add of tensors of different shapes is undefined *)
Definition sv_add (v y : list spart) : outcome (list spart) :=
  _ <- assert_ (zlen v =? zlen y) ;;
  zfor 0 (zlen v) (fun i v =>
    P <- rd v i ;; Q <- rd y i ;;
    if (m_n0 (sp_mat P) =? m_n0 (sp_mat Q)) && (m_n1 (sp_mat P) =? m_n1 (sp_mat Q))
    then wr v i (mkSpart (sp_irr P) (madd (sp_mat P) (sp_mat Q))) else UB) v.

(* SnVec.hpp 219-232: downB *)
Definition sv_down (P : spart) : outcome (list spart) :=
  let m := m_n1 (sp_mat P) in
  mus <- ip_foreach_sub (io_lambda (sp_irr P)) ;;
  r <- foldM (fun mu st =>
         let '(R, offs) := st in
         Q <- sp_zero mu m ;;
         B <- sp_add_block_to (sp_mat P) offs 0 (sp_mat Q) 1 ;;
         Ret (R ++ [mkSpart (sp_irr Q) B], offs + m_n0 B)) mus ([], 0) ;;
  Ret (fst r).

(* SnVec.hpp 234-251: up *)
Definition sv_up (tau : list (list Z * Z)) (v : list spart) : outcome (list spart) :=
  R <- sv_zero tau ;;
  r <- foldM (fun p st =>
         let '(R, offs) := st in
         let k := sv_index R (fst p) in
         dest <- rd R k ;;
         let m := m_n1 (sp_mat dest) in
         mus <- ip_foreach_sub (fst p) ;;
         s <- foldM (fun mu st =>
                let '(D, voffs, offs) := st in
                let ix := sv_index v mu in
                _ <- assert_ (0 <=? ix) ;;
                src <- rd v ix ;;
                jo <- rd offs ix ;;
                D <- sp_add_to_block_block D voffs 0 (sp_mat src) 0 jo (m_n0 (sp_mat src)) m ;;
                offs <- wr offs ix (jo + m) ;;
                Ret (D, voffs + m_n0 (sp_mat src), offs)) mus (sp_mat dest, 0, offs) ;;
         let '(D, _, offs) := s in
         R <- wr R k (mkSpart (sp_irr dest) D) ;;
         Ret (R, offs)) tau (R, repeat 0 (length v)) ;;
  Ret (fst r).

(* SnVec.hpp 253-268: cat *)
Definition sv_cat (vs : list (list spart)) : outcome (list spart) :=
  tau <- foldM (fun v tau => foldM (fun P tau => ty_add tau (io_lambda (sp_irr P)) (m_n1 (sp_mat P))) v tau) vs [] ;;
  R <- sv_zero tau ;;
  r <- foldM (fun v st => foldM (fun P st =>
         let '(R, offs) := st in
         let ix := sv_index R (io_lambda (sp_irr P)) in
         D <- rd R ix ;;
         jo <- rd offs ix ;;
         A <- sp_add_to_block (sp_mat D) 0 jo (sp_mat P) ;;
         R <- wr R ix (mkSpart (sp_irr D) A) ;;
         offs <- wr offs ix (jo + m_n1 (sp_mat P)) ;;
         Ret (R, offs)) v st) vs (R, repeat 0 (length R)) ;;
  Ret (fst r).

(* target.block2(i,j,h,w).add(source.block2(i',j',h,w)) for two tensors; blocks that do not fit are undefined *)
Definition block2_add (A : mat) (i j : Z) (B : mat) (i' j' h w : Z) : outcome mat :=
  if block_fits A i j h w && block_fits B i' j' h w then
    Ret (mkMat (m_n0 A) (m_n1 A) (fun a b =>
      if inrange (a - i) h && inrange (b - j) w then (m_at A a b + m_at B (a - i + i')%Z (b - j + j')%Z)%R else m_at A a b))
  else UB.

(* SnVec.hpp 172-195: accumulate_up; returns the new parts and the new offs.  parts[lambda] and exists(lambda)
   compare the partitions. *)
Definition sv_accumulate_up (R : list spart) (offs : list (list Z * Z)) (sub : list spart) (tau : list (list Z * Z)) :
    outcome (list spart * list (list Z * Z)) :=
  r <- foldM (fun p st =>
         let '(R, offs, sub_offs) := st in
         let lambda := fst p in
         let ncols := snd p in
         let k := sv_index R lambda in
         _ <- assert_ (0 <=? k) ;;
         target <- rd R k ;;
         c <- ty_call offs lambda ;;
         let '(coffs, offs) := c in
         mus <- ip_foreach_sub lambda ;;
         s <- foldM (fun mu st =>
                let '(D, roffs, sub_offs) := st in
                let ix := sv_index sub mu in
                _ <- assert_ (0 <=? ix) ;;
                src <- rd sub ix ;;
                let nrows := m_n0 (sp_mat src) in
                c <- ty_call sub_offs mu ;;
                let '(so, sub_offs) := c in
                D <- block2_add D roffs coffs (sp_mat src) 0 so nrows ncols ;;
                sub_offs <- ty_add sub_offs mu ncols ;;
                Ret (D, roffs + nrows, sub_offs)) mus (sp_mat target, 0, sub_offs) ;;
         let '(D, _, sub_offs) := s in
         R <- wr R k (mkSpart (sp_irr target) D) ;;
         offs <- ty_add offs lambda ncols ;;
         Ret (R, offs, sub_offs)) tau (R, offs, []) ;;
  let '(R, offs, _) := r in Ret (R, offs).
