(* Model of Sn/SnIrrepObj.hpp and Sn/SnIrrep.hpp: Young's orthogonal representation.
   float and double are the real numbers (exact arithmetic, no rounding, no overflow).  The tensors of
   the library cnine, which is not part of the repository, are functions on index ranges; reading or
   writing outside the range is undefined behaviour.  The tables YORt, YOR1, YOR2 and the YOR tensors
   depend only on members that never change (n, d, lambda, tableaux) and are computed at most once, so
   they are recomputed here at each use. *)
From Coq Require Import ZArith List Bool Reals.
From Verif Require Import Model_Base Model_Perm Model_Part Model_Comb Model_Tab.
Import ListNotations.
Open Scope Z_scope.

(* rtensor with two dimensions *)
Record mat := mkMat { m_n0 : Z; m_n1 : Z; m_at : Z -> Z -> R }.

Definition inrange (i n : Z) : bool := (0 <=? i) && (i <? n).

(* get_value(i,j), set_value(i,j,x) *)
Definition mget (A : mat) (i j : Z) : outcome R :=
  if inrange i (m_n0 A) && inrange j (m_n1 A) then Ret (m_at A i j) else UB.
Definition mset (A : mat) (i j : Z) (x : R) : outcome mat :=
  if inrange i (m_n0 A) && inrange j (m_n1 A) then
    Ret (mkMat (m_n0 A) (m_n1 A) (fun a b => if (a =? i) && (b =? j) then x else m_at A a b))
  else UB.

(* rtensor(dims(d,d),fill::identity), rtensor(dims(d,d),fill::zero), operator+= *)
Definition mident (d : Z) : mat := mkMat d d (fun i j => if i =? j then 1%R else 0%R).
Definition mzero (d : Z) : mat := mkMat d d (fun _ _ => 0%R).
Definition madd (A B : mat) : mat := mkMat (m_n0 A) (m_n1 A) (fun i j => (m_at A i j + m_at B i j)%R).

(* Rtensor3_view *)
Record ten := mkTen { t_n0 : Z; t_n1 : Z; t_n2 : Z; t_at : Z -> Z -> Z -> R }.
Definition tget (A : ten) (i j k : Z) : outcome R :=
  if inrange i (t_n0 A) && inrange j (t_n1 A) && inrange k (t_n2 A) then Ret (t_at A i j k) else UB.
Definition tset (A : ten) (i j k : Z) (x : R) : outcome ten :=
  if inrange i (t_n0 A) && inrange j (t_n1 A) && inrange k (t_n2 A) then
    Ret (mkTen (t_n0 A) (t_n1 A) (t_n2 A)
           (fun a b c => if (a =? i) && (b =? j) && (c =? k) then x else t_at A a b c))
  else UB.

(* SnIrrepObj.hpp 36-39 *)
Record irr := mkIrrep { io_n : Z; io_lambda : part; io_tabs : list tab }.
Definition io_d (o : irr) : Z := zlen (io_tabs o).

(* SnIrrepObj.hpp 58-63 *)
Definition irr_new (lambda : part) : outcome irr :=
  ts <- young_tableaux lambda ;; Ret (mkIrrep (ip_getn lambda) lambda ts).

(* comparison of tableaux: YoungTableau.hpp 95 *)
Definition yt_eq (t u : tab) : bool := if list_eq_dec (list_eq_dec Z.eq_dec) t u then true else false.

(* SnIrrepObj.hpp 87-88 *)
Fixpoint tab_index (ts : list tab) (t : tab) (i : Z) : Z :=
  match ts with [] => -1 | u :: ts' => if yt_eq u t then i else tab_index ts' t (i + 1) end.
Definition irr_index (o : irr) (t : tab) : Z := tab_index (io_tabs o) t 0.

(* SnIrrepObj.hpp 430-452.  The three arrays YORt, YOR1, YOR2 of the same length are one array of
   triples.  delta=0 would be a division by zero in floating point, which has no value in the reals. *)
Definition compute_yor (o : irr) : outcome (list (option (Z * R * R))) :=
  let n := io_n o in
  let d := io_d o in
  if d * (n - 1) <? 0 then Throw else
  zfor 0 d
    (fun i b =>
       zfor 1 n
         (fun tau b =>
            let ix := i * (n - 1) + tau - 1 in
            t <- rd (io_tabs o) i ;;
            r <- yt_apply_transp t tau (tau + 1) ;;
            let '(t', delta) := r in
            if (delta =? 1) || (delta =? -1) then wr b ix (Some (-1, IZR delta, 0%R))
            else if delta =? 0 then UB
            else wr b ix (Some (irr_index o t', (1 / IZR delta)%R, sqrt (1 - 1 / IZR (delta * delta)))))
         b)
    (repeat None (Z.to_nat (d * (n - 1)))).

(* SnIrrepObj.hpp 426-428 *)
Definition yor_get (o : irr) (b : list (option (Z * R * R))) (tau t : Z) : outcome (Z * R * R) :=
  x <- rd b (t * (io_n o - 1) + tau - 1) ;;
  match x with Some v => Ret v | None => UB end.

(* SnIrrepObj.hpp 375-397: apply_left(A,tau,beg,end) *)
Definition irr_apply_block (o : irr) (tau beg end_ : Z) (A : mat) : outcome mat :=
  _ <- assert_ (m_n0 A =? io_d o) ;;
  yor <- compute_yor o ;;
  r <- zfor 0 (io_d o)
         (fun i st =>
            let '(A, done) := st in
            dn <- rd done i ;;
            if dn : bool then Ret (A, done)
            else
              y <- yor_get o yor tau i ;;
              let '(i2, c1, c2) := y in
              if i2 =? -1 then
                A <- zfor beg end_ (fun j A => x <- mget A i j ;; mset A i j (c1 * x)%R) A ;;
                Ret (A, done)
              else
                A <- zfor beg end_
                       (fun j A =>
                          t <- mget A i j ;;
                          x <- mget A i2 j ;;
                          A <- mset A i j (c1 * t + c2 * x)%R ;;
                          x <- mget A i2 j ;;
                          mset A i2 j (- c1 * x + c2 * t)%R) A ;;
                done <- wr done i2 true ;;
                Ret (A, done))
         (A, repeat false (Z.to_nat (io_d o))) ;;
  Ret (fst r).

(* SnIrrepObj.hpp 166-191: apply_left(A,tau), the same loop over all columns *)
Definition irr_apply (o : irr) (tau : Z) (A : mat) : outcome mat := irr_apply_block o tau 0 (m_n1 A) A.

(* SnIrrepObj.hpp 127-133, repeated in 199-205, 277-283, 350-356, 404-410 *)
Definition perm_shifts (n : Z) (sigma : perm) : outcome (list Z) :=
  _ <- assert_ (zlen sigma =? n) ;;
  r <- zford n 1
         (fun i st =>
            let '(p, sh) := st in
            a <- p_call p i ;;
            sh <- wr sh (i - 1) a ;;
            p <- zfor 1 i (fun j p => x <- rd p (j - 1) ;; if x >? a then wr p (j - 1) (x - 1) else Ret p) p ;;
            Ret (p, sh))
         (sigma, repeat 0 (Z.to_nat n)) ;;
  Ret (snd r).

(* 126-140 with [act a] for apply_left(A,a); also 198-210, 276-288, 349-363 *)
Definition act_perm {S : Type} (act : Z -> S -> outcome S) (n : Z) (sigma : perm) (A : S) : outcome S :=
  sh <- perm_shifts n sigma ;;
  zfor 2 (n + 1) (fun i A => s <- rd sh (i - 1) ;; zford (i - 1) s act A) A.

(* 142-150, 213-221, 291-299 *)
Definition act_cycle {S : Type} (act : Z -> S -> outcome S) (c : ccycle) (A : S) : outcome S :=
  if cy_a c <? cy_b c then zford (cy_b c - 1) (cy_a c) act A
  else zfor (cy_b c) (cy_a c) act A.

(* 365-368: only the descending loop *)
Definition act_cycle_block {S : Type} (act : Z -> S -> outcome S) (c : ccycle) (A : S) : outcome S :=
  zford (cy_b c - 1) (cy_a c) act A.

(* 152-155, 370-373 *)
Definition act_cycle_inv {S : Type} (act : Z -> S -> outcome S) (c : ccycle) (A : S) : outcome S :=
  zfor (cy_a c) (cy_b c) act A.

(* 157-164, 224-231, 302-309 *)
Definition act_transp {S : Type} (act : Z -> S -> outcome S) (x : transposition) (A : S) : outcome S :=
  let a := Z.min (tr_i x) (tr_j x) in
  let b := Z.max (tr_i x) (tr_j x) in
  A <- zford (b - 1) a act A ;;
  zfor (a + 1) b act A.

(* SnIrrepObj.hpp 126-140 *)
Definition irr_apply_perm (o : irr) (sigma : perm) (A : mat) : outcome mat := act_perm (irr_apply o) (io_n o) sigma A.

(* SnIrrepObj.hpp 94-98, SnIrrep.hpp 71-75: operator()(sigma) *)
Definition irr_matrix (o : irr) (sigma : perm) : outcome mat := irr_apply_perm o sigma (mident (io_d o)).

(* SnIrrepObj.hpp 349-363: block version for a permutation *)
Definition irr_apply_perm_block (o : irr) (sigma : perm) (beg end_ : Z) (A : mat) : outcome mat :=
  act_perm (fun a => irr_apply_block o a beg end_) (io_n o) sigma A.

(* SnIrrepObj.hpp 416-420: A.dim(1)/stride is an integer division *)
Definition irr_apply_cycle_strided (o : irr) (c : ccycle) (beg end_ stride : Z) (A : mat) : outcome mat :=
  q <- cdiv (m_n1 A) stride ;;
  zfor 0 q (fun j A => act_cycle_block (fun a => irr_apply_block o a (beg + j * stride) (end_ + j * stride)) c A) A.

(* SnIrrepObj.hpp 403-414 *)
Definition irr_apply_perm_strided (o : irr) (sigma : perm) (beg end_ stride : Z) (A : mat) : outcome mat :=
  sh <- perm_shifts (io_n o) sigma ;;
  zfor 2 (io_n o + 1)
    (fun i A => s <- rd sh (i - 1) ;; irr_apply_cycle_strided o (mkCyc s i) beg end_ stride A) A.

(* SnIrrepObj.hpp 100-114 *)
Definition irr_character (o : irr) (mu : part) : outcome R :=
  r <- zfor 0 (zlen mu)
         (fun i st =>
            let '(R, a) := st in
            m <- rd mu i ;;
            R <- act_cycle (irr_apply o) (mkCyc a (a + m - 1)) R ;;
            Ret (R, a + m))
         (mident (io_d o), 1) ;;
  zfor 0 (io_d o) (fun i t => x <- mget (fst r) i i ;; Ret (t + x)%R) 0%R.

(* SnIrrep.hpp 77-82: operator()(Transposition), and 84-89: transp(i,j) *)
Definition irr_transp (o : irr) (x : transposition) : outcome mat :=
  R <- act_cycle (irr_apply o) (mkCyc (tr_i x) (tr_j x)) (mident (io_d o)) ;;
  act_cycle_inv (irr_apply o) (mkCyc (tr_i x + 1) (tr_j x)) R.

(* SnIrrepObj.hpp 492-505 without the cache YJM; view2().diag() is the list of diagonal entries *)
Definition irr_jm_matrix (o : irr) (k : Z) : outcome mat :=
  _ <- assert_ (k <=? io_n o) ;;
  r <- zford (k - 1) 1
         (fun i st =>
            let '(R, A) := st in
            A <- irr_apply o i A ;;
            B <- act_cycle_inv (irr_apply o) (mkCyc (i + 1) k) A ;;
            Ret (madd R B, A))
         (mzero (io_d o), mident (io_d o)) ;;
  Ret (fst r).
Definition mdiag (A : mat) : list R := map (fun i => m_at A i i) (zrange 0 (m_n0 A)).
Definition irr_jm (o : irr) (k : Z) : outcome (list R) := R <- irr_jm_matrix o k ;; Ret (mdiag R).

(* with the cache: associative_container<int,rtensor> as an association list *)
Fixpoint jm_find (c : list (Z * list R)) (k : Z) : option (list R) :=
  match c with [] => None | (j, v) :: c' => if j =? k then Some v else jm_find c' k end.
Definition irr_jm_cached (o : irr) (k : Z) (c : list (Z * list R)) : outcome (list R * list (Z * list R)) :=
  _ <- assert_ (k <=? io_n o) ;;
  match jm_find c k with
  | Some v => Ret (v, c)
  | None => v <- irr_jm o k ;; Ret (v, c ++ [(k, v)])
  end.

(* SnIrrepObj.hpp 312-338: middle index of a view *)
Definition irr_apply_mid (o : irr) (tau : Z) (T : ten) : outcome ten :=
  _ <- assert_ (t_n1 T =? io_d o) ;;
  yor <- compute_yor o ;;
  r <- zfor 0 (io_d o)
         (fun i st =>
            let '(T, done) := st in
            dn <- rd done i ;;
            if dn : bool then Ret (T, done)
            else
              y <- yor_get o yor tau i ;;
              let '(i2, c1, c2) := y in
              if i2 =? -1 then
                T <- zfor 0 (t_n0 T) (fun a T => zfor 0 (t_n2 T)
                       (fun b T => x <- tget T a i b ;; tset T a i b (c1 * x)%R) T) T ;;
                Ret (T, done)
              else
                T <- zfor 0 (t_n0 T) (fun a T => zfor 0 (t_n2 T)
                       (fun b T =>
                          t <- tget T a i b ;;
                          x <- tget T a i2 b ;;
                          T <- tset T a i b (c1 * t + c2 * x)%R ;;
                          x <- tget T a i2 b ;;
                          tset T a i2 b (- c1 * x + c2 * t)%R) T) T ;;
                done <- wr done i2 true ;;
                Ret (T, done))
         (T, repeat false (Z.to_nat (io_d o))) ;;
  Ret (fst r).

(* SnIrrepObj.hpp 454-486, the tensors of one generator tau: the number of fixed rows, their indices and
   coefficients, and the d/2+1 slots of pairs, all zero at first.  A slot beyond the last is outside the
   tensor. *)
Definition yor_plan (o : irr) (tau : Z) : outcome (Z * list (Z * R) * list (Z * Z * R * R)) :=
  let d := io_d o in
  r <- zfor 0 d
         (fun i st =>
            let '(ix, diags, giv, done) := st in
            dn <- rd done i ;;
            if dn : bool then Ret (ix, diags, giv, done)
            else
              t <- rd (io_tabs o) i ;;
              r <- yt_apply_transp t tau (tau + 1) ;;
              let '(t', delta) := r in
              if (delta =? 1) || (delta =? -1) then
                diags <- wr diags ix (i, IZR delta) ;;
                Ret (ix + 1, diags, giv, done)
              else if delta =? 0 then UB
              else
                let j := irr_index o t' in
                giv <- wr giv (i - ix) (i, j, (1 / IZR delta)%R, sqrt (1 - 1 / IZR (delta * delta))) ;;
                done <- wr done j true ;;
                Ret (ix, diags, giv, done))
         (0, repeat (0, 0%R) (Z.to_nat d), repeat (0, 0, 0%R, 0%R) (Z.to_nat (d / 2 + 1)), repeat false (Z.to_nat d)) ;;
  let '(ix, diags, giv, _) := r in
  Ret (ix, diags, giv).

(* cnine ScaleSomeSlicesFn and GivensSomeSlicesFn (not in the repository) taken to do, on each listed
   slice or pair of slices, what lines 255-264 of SnIrrepObj.hpp do *)
Definition scale_slice (T : ten) (s : Z * R) : ten :=
  let '(i, c) := s in
  mkTen (t_n0 T) (t_n1 T) (t_n2 T) (fun a b e => if a =? i then (c * t_at T a b e)%R else t_at T a b e).
Definition givens_slice (T : ten) (s : Z * Z * R * R) : ten :=
  let '(i, j, c1, c2) := s in
  mkTen (t_n0 T) (t_n1 T) (t_n2 T)
    (fun a b e => if a =? j then (- c1 * t_at T j b e + c2 * t_at T i b e)%R
                  else if a =? i then (c1 * t_at T i b e + c2 * t_at T j b e)%R
                  else t_at T a b e).

(* SnIrrepObj.hpp 234-243: first index of a view *)
Definition irr_apply_view (o : irr) (tau : Z) (T : ten) : outcome ten :=
  _ <- assert_ (t_n0 T =? io_d o) ;;
  if (tau <? 1) || (io_n o - 1 <? tau) then UB else
  p <- yor_plan o tau ;;
  let '(nd, diags, giv) := p in
  let T := fold_left scale_slice (firstn (Z.to_nat nd) diags) T in
  let T := fold_left givens_slice (firstn (Z.to_nat ((io_d o - nd) / 2)) giv) T in
  Ret T.

(* SnIrrepObj.hpp 276-287, 290-298, 301-308: middle index of a view *)
Definition irr_mid_perm (o : irr) (sigma : perm) (T : ten) : outcome ten := act_perm (irr_apply_mid o) (io_n o) sigma T.
Definition irr_mid_cycle (o : irr) (c : ccycle) (T : ten) : outcome ten := act_cycle (irr_apply_mid o) c T.
Definition irr_mid_transp (o : irr) (x : transposition) (T : ten) : outcome ten := act_transp (irr_apply_mid o) x T.

(* SnIrrepObj.hpp 198-210, 213-221, 224-231: first index of a view *)
Definition irr_view_perm (o : irr) (sigma : perm) (T : ten) : outcome ten := act_perm (irr_apply_view o) (io_n o) sigma T.
Definition irr_view_cycle (o : irr) (c : ccycle) (T : ten) : outcome ten := act_cycle (irr_apply_view o) c T.
Definition irr_view_transp (o : irr) (x : transposition) (T : ten) : outcome ten := act_transp (irr_apply_view o) x T.
