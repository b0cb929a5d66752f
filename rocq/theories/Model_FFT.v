(* Model of Sn/ClausenFFTblockTmplt.hpp, Sn/ClausenFFTpartTmplt.hpp, Sn/ClausenFFTvecTmplt.hpp,
   Sn/ClausenFFTObj.hpp, Sn/SnMultiPart.hpp, Sn/SnMultiVec.hpp, Sn/SnOverSmFunction.hpp and Sn/SnFFTbank.hpp:
   Clausen's fast Fourier transform on Sn and on Sn/Sm.

   Pointers to templates and irreps are the objects they point to: a template is only changed while the level
   that owns it is built, and an irrep never (get_irrep is irr_new, see C27).  The views of cnine
   (fuse01, block, split1, slice2, reduce2, broadcast2) are the index arithmetic their names say; cnine itself
   is not part of the repository.  A view that does not fit into its tensor is undefined behaviour.
   cnine::indexed_mapB is used as a vector (push_back, operator[], size, iteration in order). *)
From Coq Require Import ZArith List Bool Reals.
From Verif Require Import Model_Base Model_Perm Model_Sn Model_Part Model_Comb Model_Tab Model_Irrep Model_Fun.
Import ListNotations.
Open Scope Z_scope.

(* ---- templates ---- *)

(* ClausenFFTblockTmplt.hpp 21-28: ioffs, joffs, subix *)
Record blk := mkBlk { bk_i : Z; bk_j : Z; bk_sub : Z }.

(* ClausenFFTpartTmplt.hpp 23-28: index, d, m, ioffs, irrep, blocks *)
Record tpart := mkTpart { tp_ix : Z; tp_d : Z; tp_m : Z; tp_io : Z; tp_irr : irr; tp_blocks : list blk }.

(* ClausenFFTpartTmplt.hpp 34-37 *)
Definition tpart_new (lambda : part) (ix : Z) : outcome tpart :=
  o <- irr_new lambda ;; Ret (mkTpart ix (io_d o) 0 0 o []).

(* ClausenFFTpartTmplt.hpp 51-55 *)
Definition tpart_add (p sub : tpart) : tpart :=
  mkTpart (tp_ix p) (tp_d p) (tp_m p + tp_m sub) (tp_io p + tp_d sub) (tp_irr p)
    (tp_blocks p ++ [mkBlk (tp_io p) (tp_m p) (tp_ix sub)]).

(* ClausenFFTvecTmplt.hpp 23-27: n, parts, parts_map.  The pointer next is the following level of the
   transform, see fft_inv. *)
Record tlev := mkTlev { tl_n : Z; tl_parts : list tpart; tl_map : list (part * Z) }.

(* std::map<IntegerPartition,int>::find: the entry whose key is neither smaller nor larger *)
Fixpoint pm_find (m : list (part * Z)) (k : part) : outcome (option Z) :=
  match m with
  | [] => Ret None
  | (k', v) :: m' =>
      a <- ip_lt k' k ;;
      b <- ip_lt k k' ;;
      if negb a && negb b then Ret (Some v) else pm_find m' k
  end.

(* ClausenFFTvecTmplt.hpp 42-51; answers the index of the part *)
Definition tlev_get_part (L : tlev) (lambda : part) : outcome (tlev * Z) :=
  f <- pm_find (tl_map L) lambda ;;
  match f with
  | None =>
      let ix := zlen (tl_parts L) in
      p <- tpart_new lambda ix ;;
      Ret (mkTlev (tl_n L) (tl_parts L ++ [p]) (tl_map L ++ [(lambda, ix)]), ix)
  | Some ix => Ret (L, ix)
  end.

(* get_part(lambda)->add(part): lines 85, 89 *)
Definition tlev_add_sub (L : tlev) (lambda : part) (sub : tpart) : outcome tlev :=
  r <- tlev_get_part L lambda ;;
  let '(L, ix) := r in
  p <- rd (tl_parts L) ix ;;
  ps <- wr (tl_parts L) ix (tpart_add p sub) ;;
  Ret (mkTlev (tl_n L) ps (tl_map L)).

(* ClausenFFTvecTmplt.hpp 66-71 *)
Definition tlev_seed (n : Z) : outcome tlev :=
  r <- tlev_get_part (mkTlev n [] []) [n] ;;
  let '(L, ix) := r in
  p <- rd (tl_parts L) ix ;;
  ps <- wr (tl_parts L) ix (mkTpart (tp_ix p) 1 1 (tp_io p) (tp_irr p) (tp_blocks p ++ [mkBlk 0 0 0])) ;;
  Ret (mkTlev n ps (tl_map L)).

(* ClausenFFTvecTmplt.hpp 78-89, for one part of the previous level *)
Definition tlev_extend (part : tpart) (L : tlev) : outcome tlev :=
  let lambda := io_lambda (tp_irr part) in
  let k := zlen lambda in
  L <- zfor 0 k
         (fun i L =>
            x <- rd lambda i ;;
            b <- (if i =? 0 then Ret true else y <- rd lambda (i - 1) ;; Ret (x <? y)) ;;
            if b then lambda' <- wr lambda i (x + 1) ;; tlev_add_sub L lambda' part else Ret L)
         L ;;
  lambda' <- ip_add lambda k 1 ;;
  tlev_add_sub L lambda' part.

(* ClausenFFTvecTmplt.hpp 74-92 *)
Definition tlev_next (prev : tlev) : outcome tlev :=
  foldM tlev_extend (tl_parts prev) (mkTlev (tl_n prev + 1) [] []).

(* ClausenFFTObj.hpp 28-31 *)
Record fft := mkFft { ff_n : Z; ff_m : Z; ff_levels : list tlev }.

(* the loops of 38-39 and 45-46: count further levels *)
Definition fft_grow (count : Z) (L0 : tlev) : outcome (list tlev) :=
  zfor 1 (count + 1) (fun l Ls => prev <- rd Ls (l - 1) ;; L <- tlev_next prev ;; Ret (Ls ++ [L])) [L0].

(* ClausenFFTObj.hpp 35-40.  resize with a negative argument throws; levels[0] of an empty vector is UB *)
Definition fft_new (n : Z) : outcome fft :=
  if n <? 0 then Throw
  else if n =? 0 then UB
  else L0 <- tlev_seed 1 ;; Ls <- fft_grow (n - 1) L0 ;; Ret (mkFft n (-1) Ls).

(* ClausenFFTObj.hpp 42-47 *)
Definition fft_new2 (n m : Z) : outcome fft :=
  if n - m + 1 <? 0 then Throw
  else if n - m + 1 =? 0 then UB
  else L0 <- tlev_seed m ;; Ls <- fft_grow (n - m) L0 ;; Ret (mkFft n m Ls).

(* ---- SnMultiPart, SnMultiVec, SnPart, SnVec ---- *)

(* SnMultiPart.hpp 26-29: a tensor of dimensions (d,N,m) and an irrep; the member N is always dims(1) *)
Record mpart := mkMpart { mp_irr : irr; mp_t : ten }.
Definition mp_N (p : mpart) : Z := t_n1 (mp_t p).

(* SnPart, SnVec: an irrep and a matrix; a list of parts in order *)
Record spart := mkSpart { sp_irr : irr; sp_mat : mat }.

(* SnMultiPart.hpp 35-37 with fill::zero *)
Definition mp_zero (N : Z) (o : irr) (m : Z) : mpart := mkMpart o (mkTen (io_d o) N m (fun _ _ _ => 0%R)).

(* a sum accumulated from zero *)
Definition acc_sum (n : Z) (f : Z -> R) : R := fold_left (fun a t => (a + f t)%R) (zrange 0 n) 0%R.

(* view3().fuse01(): rows i*N+s *)
Definition fuse01 (T : ten) : mat :=
  mkMat (t_n0 T * t_n1 T) (t_n2 T) (fun r k => t_at T (r / t_n1 T) (r mod t_n1 T) k).

(* does the block with corner (i,j) of size (h,w) fit into the matrix *)
Definition block_fits (A : mat) (i j h w : Z) : bool :=
  (0 <=? i) && (i + h <=? m_n0 A) && (0 <=? j) && (j + w <=? m_n1 A).

(* SnMultiPart.hpp 187-189 *)
Definition mp_add_to_block (P : mpart) (io jo : Z) (M : mpart) : outcome mpart :=
  let T := mp_t P in
  let S := mp_t M in
  let i0 := io * mp_N P in
  let h := t_n0 S * t_n1 S in
  if block_fits (fuse01 T) i0 jo h (t_n2 S) then
    Ret (mkMpart (mp_irr P)
           (mkTen (t_n0 T) (t_n1 T) (t_n2 T)
              (fun i s k =>
                 let r := i * t_n1 T + s - i0 in
                 if inrange r h && inrange (k - jo) (t_n2 S)
                 then (t_at T i s k + m_at (fuse01 S) r (k - jo))%R else t_at T i s k)))
  else UB.

(* SnMultiPart.hpp 201-205; answers the new M *)
Definition mp_add_block_to (P : mpart) (io jo : Z) (M : mpart) (c : R) : outcome mpart :=
  _ <- assert_ (mp_N P =? mp_N M) ;;
  let S := mp_t M in
  let i0 := io * mp_N P in
  if block_fits (fuse01 (mp_t P)) i0 jo (t_n0 S * mp_N P) (t_n2 S) then
    Ret (mkMpart (mp_irr M)
           (mkTen (t_n0 S) (t_n1 S) (t_n2 S)
              (fun i s k => (t_at S i s k + c * m_at (fuse01 (mp_t P)) (i0 + (i * t_n1 S + s)) (jo + k))%R)))
  else UB.

(* split1(view3(),a,n).slice2(j): the rows s*n+j, s<a, of the second dimension; and its contents after a
   change made through it *)
Definition slice_get (T : ten) (a n j : Z) : outcome ten :=
  if (0 <=? a) && (a * n <=? t_n1 T) && inrange j n
  then Ret (mkTen (t_n0 T) a (t_n2 T) (fun i s k => t_at T i (s * n + j) k)) else UB.
Definition slice_put (T : ten) (a n j : Z) (S : ten) : ten :=
  mkTen (t_n0 T) (t_n1 T) (t_n2 T)
    (fun i y k => if (y mod n =? j) && inrange y (a * n) then t_at S i (y / n) k else t_at T i y k).

(* SnMultiPart.hpp 223-240 *)
Definition mp_reduce (P : mpart) : outcome mpart :=
  let n := ip_getn (io_lambda (mp_irr P)) in
  let T := mp_t P in
  newN <- cdiv (mp_N P) n ;;
  Ret (mkMpart (mp_irr P) (mkTen (t_n0 T) newN (t_n2 T) (fun i s k => acc_sum n (fun t => t_at T i (s * n + t) k)))).

(* SnMultiPart.hpp 243-257 *)
Definition mp_broadcast (P : mpart) (b : Z) : mpart :=
  let T := mp_t P in
  mkMpart (mp_irr P) (mkTen (t_n0 T) (mp_N P * b) (t_n2 T) (fun i y k => t_at T i (y / b) k)).

(* SnMultiPart.hpp 86-91, SnMultiVec.hpp 88-90 *)
Definition mv_of_values (v : list R) : outcome (list mpart) :=
  o <- irr_new [1] ;;
  Ret [mkMpart o (mkTen 1 (zlen v) 1 (fun _ s _ => nth (Z.to_nat s) v 0%R))].

(* SnMultiPart.hpp 127-131, SnMultiVec.hpp 108-111 *)
Definition mv_of_vec (w : list spart) : list mpart :=
  map (fun p => mkMpart (sp_irr p) (mkTen (m_n0 (sp_mat p)) 1 (m_n1 (sp_mat p)) (fun i _ k => m_at (sp_mat p) i k))) w.

(* SnMultiPart.hpp 141-145, SnMultiVec.hpp 113-118 *)
Definition mv_as_vec (v : list mpart) : outcome (list spart) :=
  foldM (fun p R =>
           _ <- assert_ (mp_N p =? 1) ;;
           Ret (R ++ [mkSpart (mp_irr p) (mkMat (t_n0 (mp_t p)) (mp_N p * t_n2 (mp_t p)) (fun i k => t_at (mp_t p) i 0 k))])) v [].

(* SnMultiPart.hpp 100-115: the entries in memory order *)
Definition mp_values (P : mpart) : list R :=
  let T := mp_t P in
  let N := mp_N P in
  let m := t_n2 T in
  map (fun e => t_at T (e / (N * m)) ((e / m) mod N) (e mod m)) (zrange 0 (t_n0 T * N * m)).

(* SnMultiVec.hpp 132-135 *)
Definition mv_getN (v : list mpart) : outcome Z :=
  match v with [] => Abort | p :: _ => Ret (mp_N p) end.

(* ---- the transforms ---- *)

Section Transform.
  (* [act o c S]: o->apply_left(S,c) for a slice S of dimensions (d,N,m).  The code calls the overload for
     views, irr_view_cycle; the loops it replaced, still present as comments, work row by row, rows_cycle. *)
  Variable act : irr -> ccycle -> ten -> outcome ten.

  (* q->irrep->apply_left(split1(q->view3(),a,n).slice2(j),c) *)
  Definition act_slice (a n j : Z) (c : ccycle) (P : mpart) : outcome mpart :=
    S <- slice_get (mp_t P) a n j ;;
    S <- act (mp_irr P) c S ;;
    Ret (mkMpart (mp_irr P) (slice_put (mp_t P) a n j S)).

  (* ClausenFFTpartTmplt.hpp 61-67 *)
  Definition tpart_up (p : tpart) (v : list mpart) : outcome mpart :=
    N <- mv_getN v ;;
    foldM (fun b P => M <- rd v (bk_sub b) ;; mp_add_to_block P (bk_i b) (bk_j b) M) (tp_blocks p) (mp_zero N (tp_irr p) (tp_m p)).

  (* ClausenFFTvecTmplt.hpp 98-118 *)
  Definition tlev_up (L : tlev) (v : list mpart) : outcome (list mpart) :=
    let n := tl_n L in
    N <- mv_getN v ;;
    newN <- cdiv N n ;;
    w <- foldM (fun p w =>
                  q <- tpart_up p v ;;
                  q <- zfor 0 n (fun j q => act_slice newN n j (mkCyc (n - j) n) q) q ;;
                  Ret (w ++ [q])) (tl_parts L) [] ;;
    foldM (fun q w => r <- mp_reduce q ;; Ret (w ++ [r])) w [].

  (* ClausenFFTvecTmplt.hpp 121-154; [nxt] is *next *)
  Definition tlev_down (L nxt : tlev) (V : list mpart) : outcome (list mpart) :=
    let n := tl_n L in
    N <- mv_getN V ;;
    let newN := N * (n + 1) in
    VV <- foldM (fun q w =>
                   q <- zfor 0 (n + 1) (fun j q => act_slice N (n + 1) j (mkCyc (n + 1) (n + 1 - j)) q) q ;;
                   Ret (w ++ [q])) (map (fun q => mp_broadcast q (n + 1)) V) [] ;;
    let R := map (fun p => mp_zero newN (tp_irr p) (tp_m p)) (tl_parts L) in
    r <- foldM (fun p st =>
                  let '(i, R) := st in
                  q <- rd VV i ;;
                  R <- foldM (fun b R =>
                                M <- rd R (bk_sub b) ;;
                                let c := (IZR (io_d (mp_irr q)) / IZR (io_d (mp_irr M) * (n + 1)))%R in
                                M <- mp_add_block_to q (bk_i b) (bk_j b) M c ;;
                                wr R (bk_sub b) M) (tp_blocks p) R ;;
                  Ret (i + 1, R)) (tl_parts nxt) (0, R) ;;
    Ret (snd r).

  (* ClausenFFTObj.hpp 53-60, 80-87 *)
  Definition fft_up (F : fft) (v : list R) : outcome (list spart) :=
    v <- mv_of_values v ;;
    v <- zfor 2 (zlen (ff_levels F) + 1) (fun l v => L <- rd (ff_levels F) (l - 1) ;; tlev_up L v) v ;;
    mv_as_vec v.

  (* ClausenFFTObj.hpp 64-75, 91-101: the common part of the two inverses *)
  Definition fft_down (F : fft) (w : list spart) : outcome (list R) :=
    let n := zlen (ff_levels F) in
    L <- rd (ff_levels F) (n - 1) ;;
    let fp := tl_parts L in
    _ <- assert_ (zlen w =? zlen fp) ;;
    _ <- zfor 0 (zlen w)
           (fun i _ =>
              p <- rd w i ;;
              q <- rd fp i ;;
              _ <- assert_ (m_n0 (sp_mat p) =? tp_d q) ;;
              assert_ (m_n1 (sp_mat p) =? tp_m q)) tt ;;
    v <- zford (n - 1) 1
           (fun l v => L <- rd (ff_levels F) (l - 1) ;; nxt <- rd (ff_levels F) l ;; tlev_down L nxt v) (mv_of_vec w) ;;
    p <- rd v 0 ;;
    Ret (mp_values p).

  (* ClausenFFTObj.hpp 53-60: the transform of a function on Sn *)
  Definition fft_forward (F : fft) (f : sfun) : outcome (list spart) := fft_up F (sf_v f).

  (* ClausenFFTObj.hpp 63-77: the label of the result is the number of levels (the local n of line 64) *)
  Definition fft_inv (F : fft) (w : list spart) : outcome sfun :=
    v <- fft_down F w ;; Ret (mkFun (zlen (ff_levels F)) v).
End Transform.

(* SnOverSmFunction.hpp 25-26, 64-67: the values on the cosets in the order of the enumeration of Sn/Sm *)
Record qfun := mkQfun { qf_n : Z; qf_m : Z; qf_v : list R }.

(* ClausenFFTObj.hpp 80-87 *)
Definition fft_forward_q (act : irr -> ccycle -> ten -> outcome ten) (F : fft) (f : qfun) : outcome (list spart) := fft_up act F (qf_v f).

(* ClausenFFTObj.hpp 90-103 *)
Definition fft_inv_snsm (act : irr -> ccycle -> ten -> outcome ten) (F : fft) (w : list spart) : outcome qfun :=
  v <- fft_down act F w ;; Ret (mkQfun (ff_n F) (ff_m F) v).

(* ---- row by row ---- *)

(* reshape({dims(0),N*m}) and back *)
Definition ten_mat (T : ten) : mat :=
  mkMat (t_n0 T) (t_n1 T * t_n2 T) (fun i y => t_at T i (y / t_n2 T) (y mod t_n2 T)).
Definition mat_ten (A : mat) (N m : Z) : ten := mkTen (m_n0 A) N m (fun i s k => m_at A i (s * m + k)).

(* SnMultiPart.hpp 289-295: apply_inplace(cyc,o,s) *)
Definition mp_apply_cycle (o s : Z) (c : ccycle) (P : mpart) : outcome mpart :=
  let T := mp_t P in
  let m := t_n2 T in
  A <- act_cycle_block (fun t => irr_apply_block (mp_irr P) t (o * m) ((o + s) * m)) c (ten_mat T) ;;
  Ret (mkMpart (mp_irr P) (mat_ten A (t_n1 T) m)).

(* SnMultiPart.hpp 297-303: apply_inplace_inv(cyc,o,s) *)
Definition mp_apply_cycle_inv (o s : Z) (c : ccycle) (P : mpart) : outcome mpart :=
  let T := mp_t P in
  let m := t_n2 T in
  A <- act_cycle_inv (fun t => irr_apply_block (mp_irr P) t (o * m) ((o + s) * m)) c (ten_mat T) ;;
  Ret (mkMpart (mp_irr P) (mat_ten A (t_n1 T) m)).

(* SnMultiPart.hpp 271-278: apply_inplace(sigma,o,s) *)
Definition mp_apply_perm (o s : Z) (sigma : perm) (P : mpart) : outcome mpart :=
  let T := mp_t P in
  let m := t_n2 T in
  A <- irr_apply_perm_block (mp_irr P) sigma (o * m) ((o + s) * m) (ten_mat T) ;;
  Ret (mkMpart (mp_irr P) (mat_ten A (t_n1 T) m)).

(* the bodies of the loops kept as comments in ClausenFFTvecTmplt.hpp 108-114 and 132-136, for all rows of
   one slice: ContiguousCycle(a,b) with a<=b by apply_inplace, with a>b by apply_inplace_inv of the
   reversed cycle *)
Definition rows_cycle (o : irr) (c : ccycle) (T : ten) : outcome ten :=
  P <- zfor 0 (t_n1 T)
         (fun s P => if cy_a c <=? cy_b c then mp_apply_cycle s 1 c P else mp_apply_cycle_inv s 1 (ccycle_inv c) P)
         (mkMpart o T) ;;
  Ret (mp_t P).

(* ---- SnFFTbank.hpp ---- *)

(* SnFFTbank.hpp 32-42: the memo table; the default m is -1 *)
Definition fbank := list (Z * Z * fft).
Fixpoint fb_find (b : fbank) (n m : Z) : option fft :=
  match b with
  | [] => None
  | (n', m', F) :: b' => if (n' =? n) && (m' =? m) then Some F else fb_find b' n m
  end.
Definition fb_get (b : fbank) (n m : Z) : outcome (fft * fbank) :=
  match fb_find b n m with
  | Some F => Ret (F, b)
  | None => F <- (if m >? -1 then fft_new2 n m else fft_new n) ;; Ret (F, b ++ [(n, m, F)])
  end.
