(* Models how the Clebsch-Gordan factors are learned: Sn/SnCGbank.hpp get_CGfactors and learn.
   The eigenvalue routine, cnine::SymmetricEigendecomp, is a parameter E: from the rows of a matrix it makes a
   matrix U, whose columns are to be eigenvectors, and the list D of the eigenvalues.  Arithmetic is in exact reals.  What learn and
   CheckCG print is left out, with the decomposition of the large matrix that is only printed.
   cnine is not in the repository: looking up a key that is not there, matrices that do not fit and blocks outside a
   matrix are undefined. *)
From Coq Require Import ZArith List Bool Reals.
From Verif Require Import Model_Base Model_Perm Model_Part Model_Comb Model_Tab Model_Irrep Model_Type Model_FFT Model_Vec Model_Char Model_CG Model_CGvec Model_VecB Model_Prod.
Import ListNotations.
Open Scope Z_scope.

(* view2().transp() *)
Definition mtransp (A : mat) : mat := mkMat (m_n1 A) (m_n0 A) (fun i j => m_at A j i).
(* A*c *)
Definition mscale (A : mat) (c : R) : mat := mkMat (m_n0 A) (m_n1 A) (fun i j => (m_at A i j * c)%R).
(* view3().slice1(i) *)
Definition tslice1 (T : ten) (i : Z) : outcome mat :=
  if inrange i (t_n1 T) then Ret (mkMat (t_n0 T) (t_n2 T) (fun a b => t_at T a i b)) else UB.
(* A.block2(0,j,-1,w): all the rows, w columns from column j on *)
Definition mcols (A : mat) (j w : Z) : outcome mat :=
  if block_fits A 0 j (m_n0 A) w then Ret (mkMat (m_n0 A) w (fun a b => m_at A a (j + b))) else UB.
(* A.block2(0,j,-1,w).set(B) *)
Definition mcols_set (A : mat) (j w : Z) (B : mat) : outcome mat :=
  if block_fits A 0 j (m_n0 A) w && (m_n0 B =? m_n0 A) && (m_n1 B =? w)
  then Ret (mkMat (m_n0 A) (m_n1 A) (fun a b => if inrange (b - j) w then m_at B a (b - j) else m_at A a b)) else UB.
(* A.view2().slice1(j).set(B.view2().slice1(i)) *)
Definition mcol_set (A : mat) (j : Z) (B : mat) (i : Z) : outcome mat :=
  if inrange j (m_n1 A) && inrange i (m_n1 B) && (m_n0 B =? m_n0 A)
  then Ret (mkMat (m_n0 A) (m_n1 A) (fun a b => if b =? j then m_at B a i else m_at A a b)) else UB.

(* cnine::associative_container<IntegerPartition,rtensor>: operator[] *)
Fixpoint as_get {V} (m : list (list Z * V)) (k : part) : outcome V :=
  match m with [] => UB | (x, v) :: m' => if ip_eq x k then Ret v else as_get m' k end.
Fixpoint as_set {V} (m : list (list Z * V)) (k : part) (v : V) : outcome (list (list Z * V)) :=
  match m with
  | [] => UB
  | (x, w) :: m' => if ip_eq x k then Ret ((x, v) :: m') else m' <- as_set m' k v ;; Ret ((x, w) :: m')
  end.

(* SnCGbank.hpp 196: while(i<dmu && abs(evals(i)-target)>0.001) i++ ; fuel is dmu-i *)
Fixpoint ev_find (fuel : nat) (evals : list R) (target : R) (i : Z) : outcome Z :=
  match fuel with
  | O => Ret i
  | S fuel' =>
      x <- rd evals i ;;
      if Rlt_dec (1 / 1000) (Rabs (x - target)) then ev_find fuel' evals target (i + 1) else Ret i
  end.

(* SnCGbank.hpp 145-155: a batch with one member for each pair of basis vectors; second says which of the two *)
Definition le_units (d1 d2 : Z) (second : bool) (lambda : part) : outcome partb :=
  P <- pb_zero (d1 * d2) lambda 1 ;;
  T <- zfor 0 d1 (fun i T => zfor 0 d2 (fun j T => tset T (i * d2 + j) (if second then j else i) 0 1%R) T) (pb_t P) ;;
  Ret (mkPartb (pb_irr P) T).

(* the rows of a matrix *)
Definition mrows (A : mat) : list (list R) := map (fun i => map (m_at A i) (zrange 0 (m_n1 A))) (zrange 0 (m_n0 A)).

(* SnCGbank.hpp 164-178: the eigenvectors and eigenvalues for one part of sub *)
Definition le_eigen (E : list (list R) -> mat * list R) (JM : mat) (P : partb) : outcome (mat * list R) :=
  V <- tslice1 (pb_t P) 0 ;;
  A <- mat_mul (mtransp V) JM ;;
  M <- mat_mul A V ;;
  Ret (E (mrows M)).

(* the factors, the numbers of columns taken, and what is left of the eigenvalues *)
Definition learn_state := (list (list Z * mat) * stype * list (list Z * list R))%type.

(* SnCGbank.hpp 194-202: the eigenvectors for the target eigenvalue become the next mult columns of the factor of mu *)
Definition le_pick (mu : part) (U : mat) (dmu : Z) (target : R) (mult : Z) (st : learn_state) : outcome learn_state :=
  zfor 0 mult (fun _ st =>
    let '(R, taken, evals) := st in
    ev <- as_get evals mu ;;
    i <- ev_find (Z.to_nat dmu) ev target 0 ;;
    if i =? dmu then Abort else
    M <- as_get R mu ;;
    c <- ty_call taken mu ;; let '(t, taken) := c in
    M <- mcol_set M t U i ;;
    R <- as_set R mu M ;;
    ev <- wr ev i (IZR 1234567) ;;
    evals <- as_set evals mu ev ;;
    taken <- ty_add taken mu 1 ;;
    Ret (R, taken, evals)) st.

(* SnCGbank.hpp 186-226: one mu below lambda.  o is SnIrrep(lambda); pull is the tensor pullback, None before the first mu *)
Definition le_mu (rho1 rho2 o : irr) (n : Z) (sub : list partb) (evectors : list (list Z * mat)) (JMl : list R) (mult : Z) (mu : part)
    (st : learn_state * Z * option mat) : outcome (learn_state * Z * option mat) :=
  let '(s, offs, pull) := st in
  target <- rd JMl offs ;;
  P <- rd sub (vb_index sub mu) ;;
  U <- as_get evectors mu ;;
  s <- le_pick mu U (pb_m P) target mult s ;;
  let '(R, taken, evals) := s in
  V <- tslice1 (pb_t P) 0 ;;
  M <- as_get R mu ;;
  c <- ty_call taken mu ;; let '(t, taken) := c in
  Rb <- mcols M (t - mult) mult ;;
  match pull with
  | None =>
      Q <- mat_mul V Rb ;;
      T <- pr_apply rho1 rho2 (n - 1) (rows_get Q) ;;
      Ret (R, taken, evals, offs + pb_d P, Some (rows_put T))
  | Some Q =>
      X <- mat_mul (mtransp V) Q ;;
      B <- mat_mul (mtransp Rb) X ;;
      A <- zfor 0 mult (fun i A => tset A 0 0 i 1%R) (mkTen 1 (io_d o) mult (fun _ _ _ => 0%R)) ;;
      A <- irr_mid_transp o (mkTransp (n - 1) n) A ;;
      v <- tget A 0 offs 0 ;;
      R <- (if Rlt_dec (1 / 10000) (Rabs v) then
              C <- mat_mul Rb (mscale (mtransp B) (1 / v)%R) ;;
              M <- mcols_set M (t - mult) mult C ;;
              as_set R mu M
            else Ret R) ;;
      Ret (R, taken, evals, offs + pb_d P, Some Q)
  end.

(* SnCGbank.hpp 110-123 and 126-233: get_CGfactors for factors that are not there yet.  F are the factors of the smaller
   groups, which CGproduct(xsub,ysub) asks get_CGfactors for. *)
Definition cg_learn (E : list (list R) -> mat * list R) (F : ftable) (b : cgbank) (lambda1 lambda2 : part) : outcome (list (list Z * mat) * cgbank) :=
  r <- cg_product b lambda1 lambda2 ;; let '(t, b) := r in
  down <- ty_down t ;;
  let R := map (fun p => (fst p, mident (snd p))) down in
  rho1 <- irr_new lambda1 ;; rho2 <- irr_new lambda2 ;;
  let n := io_n rho1 in
  JM <- pr_jm rho1 rho2 n ;;
  p1 <- le_units (io_d rho1) (io_d rho2) false lambda1 ;;
  p2 <- le_units (io_d rho1) (io_d rho2) true lambda2 ;;
  xsub <- vb_down p1 ;; ysub <- vb_down p2 ;;
  r <- cgb_vec F b xsub ysub ;; let '(sub, b) := r in
  eigs <- foldM (fun P st => e <- le_eigen E JM P ;; Ret (st ++ [(io_lambda (pb_irr P), e)])) sub [] ;;
  let evectors := map (fun p => (fst p, fst (snd p))) eigs in
  let evalues := map (fun p => (fst p, snd (snd p))) eigs in
  r <- cg_product b lambda1 lambda2 ;; let '(tau, b) := r in
  s <- foldM (fun p s =>
         o <- irr_new (fst p) ;;
         JMl <- irr_jm o (io_n o) ;;
         mus <- ip_foreach_sub (fst p) ;;
         r <- foldM (le_mu rho1 rho2 o n sub evectors JMl (snd p)) mus (s, 0, None) ;;
         let '(s, _, _) := r in Ret s) tau (R, [], evalues) ;;
  let '(R, _, _) := s in Ret (R, b).

(* the factor of mu among the learned ones, 0 if there is none *)
Definition le_entry (fs : list (list Z * mat)) (mu : list Z) (i j : Z) : R :=
  match as_get fs mu with Ret M => m_at M i j | _ => 0%R end.

(* the factors for partitions of at most k: those of the smaller sizes are learned first.  Learned factors are kept, and
   learning again gives the same numbers, so it does not matter which pair is asked for first. *)
Fixpoint cg_table (E : list (list R) -> mat * list R) (k : nat) : ftable :=
  match k with
  | O => fun _ _ _ _ _ => 0%R
  | S k' => fun lambda1 lambda2 mu i j =>
      if ip_getn lambda1 =? Z.of_nat (S k') then
        match cg_learn E (cg_table E k') cg0 lambda1 lambda2 with Ret (R, _) => le_entry R mu i j | _ => 0%R end
      else cg_table E k' lambda1 lambda2 mu i j
  end.

(* the factors of the bank *)
Definition cg_learned (E : list (list R) -> mat * list R) : ftable := fun lambda1 => cg_table E (Z.to_nat (ip_getn lambda1)) lambda1.
