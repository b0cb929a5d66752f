(* Model of combinatorial/CombinatorialBank.hpp, CombinatorialBankLevel.hpp and
   IntegerPartitionObj.hpp with their caches.  The bank is the vector of levels; the level of n is
   element n-1, and its [sub] pointer is the element before it.  An IntegerPartitionObj of a level is
   named by its position in the level's vector ip, so pointers are integers. *)
From Coq Require Import ZArith List Bool.
From Verif Require Import Model_Base Model_Part Model_Comb Model_Tab.
Import ListNotations.
Open Scope Z_scope.

(* IntegerPartitionObj.hpp 23-27 (n is lambda.getn()) *)
Record obj := mkObj { ob_lambda : part; ob_parents : list Z; ob_tabs : list tab }.

(* CombinatorialBankLevel.hpp 25-32.  unordered_map<IntegerPartition,IntegerPartitionObj*> is an
   association list. *)
Record lev := mkLev { lv_ip : list obj; lv_map : list (part * Z); lv_parts : list part; lv_ro : list part }.

(* CombinatorialBankLevel.hpp 43-48 *)
Definition lev_new : lev := mkLev [] [] [] [].

Notation bank := (list lev) (only parsing).

(* unordered_map::find: an entry with the same hash and an equal key *)
Fixpoint map_find (m : list (part * Z)) (lambda : part) : option Z :=
  match m with
  | [] => None
  | (mu, id) :: m' => if (ip_hash mu =? ip_hash lambda) && ip_eq mu lambda then Some id else map_find m' lambda
  end.

(* CombinatorialBankLevel.hpp 71-91, on the level of n = k+1 *)
Fixpoint get_obj (k : nat) (lambda : part) (b : bank) : outcome (Z * bank) :=
  _ <- assert_ (ip_getn lambda =? Z.of_nat k + 1) ;;
  l <- rd b (Z.of_nat k) ;;
  match map_find (lv_map l) lambda with
  | Some id => Ret (id, b)
  | None =>
      r <- match k with
           | O => Ret ([], b)
           | S k' =>
               zford (ip_height lambda - 1) 0
                 (fun i st =>
                    let '(ps, b) := st in
                    s <- ip_shortenable lambda i ;;
                    if s then
                      mu <- ip_remove lambda i 1 ;;
                      r <- get_obj k' mu b ;;
                      let '(id, b) := r in Ret (ps ++ [id], b)
                    else Ret (ps, b)) ([], b)
           end ;;
      let '(ps, b) := r in
      l <- rd b (Z.of_nat k) ;;
      let id := zlen (lv_ip l) in
      b <- wr b (Z.of_nat k)
             (mkLev (lv_ip l ++ [mkObj lambda ps []]) (lv_map l ++ [(lambda, id)]) (lv_parts l) (lv_ro l)) ;;
      Ret (id, b)
  end.

(* IntegerPartitionObj.hpp 43-68.  The new tableaux are stored when all are made: the calls in
   between only touch objects of lower levels. *)
Fixpoint get_tabs (k : nat) (id : Z) (b : bank) : outcome (list tab * bank) :=
  l <- rd b (Z.of_nat k) ;;
  o <- rd (lv_ip l) id ;;
  match ob_tabs o with
  | _ :: _ => Ret (ob_tabs o, b)
  | [] =>
      r <- match k with
           | O => Ret ([yt_identity 1], b)
           | S k' =>
               foldM (fun pid st =>
                        let '(acc, b) := st in
                        sl <- rd b (Z.of_nat k') ;;
                        po <- rd (lv_ip sl) pid ;;
                        i <- tableau_row (ob_lambda po) (ob_lambda o) ;;
                        r <- get_tabs k' pid b ;;
                        let '(sub, b) := r in
                        acc <- foldM (fun a acc => t <- yt_add a i (Z.of_nat k + 1) ;; Ret (acc ++ [t])) sub acc ;;
                        Ret (acc, b)) (ob_parents o) ([], b)
           end ;;
      let '(ts, b) := r in
      l <- rd b (Z.of_nat k) ;;
      ip <- wr (lv_ip l) id (mkObj (ob_lambda o) (ob_parents o) ts) ;;
      b <- wr b (Z.of_nat k) (mkLev ip (lv_map l) (lv_parts l) (lv_ro l)) ;;
      Ret (ts, b)
  end.

(* CombinatorialBankLevel.hpp 53-56, 93-113 *)
Fixpoint get_parts (k : nat) (b : bank) : outcome (list part * bank) :=
  l <- rd b (Z.of_nat k) ;;
  match lv_parts l with
  | _ :: _ => Ret (lv_parts l, b)
  | [] =>
      r <- match k with
           | O => Ret ([ip_row 1], b)
           | S k' =>
               r <- get_parts k' b ;;
               let '(sub, b) := r in
               ps <- foldM (fun p acc => c <- cb_children p ;; Ret (acc ++ c)) sub [] ;;
               Ret (ps, b)
           end ;;
      let '(ps, b) := r in
      l <- rd b (Z.of_nat k) ;;
      b <- wr b (Z.of_nat k) (mkLev (lv_ip l) (lv_map l) ps (lv_ro l)) ;;
      Ret (ps, b)
  end.

(* the parents of partitions[i] of level k, through get_IntegerPartitionObj *)
Definition obj_parents (k : nat) (i : Z) (b : bank) : outcome (list Z * bank) :=
  l <- rd b (Z.of_nat k) ;;
  p <- rd (lv_parts l) i ;;
  r <- get_obj k p b ;;
  let '(id, b) := r in
  l <- rd b (Z.of_nat k) ;;
  o <- rd (lv_ip l) id ;;
  Ret (ob_parents o, b).

Definition all_in (js is : list Z) : bool := forallb (fun j => existsb (Z.eqb j) is) js.

(* CombinatorialBankLevel.hpp 123-135.  The depth of the recursion is bounded by [fuel]; running out
   of it is reported as undefined behaviour, so that theorems show it does not happen. *)
Fixpoint propose_ro (fuel : nat) (k : nat) (N i : Z) (st : list bool * bank) : outcome (list bool * bank) :=
  match fuel with
  | O => UB
  | S fuel' =>
      let '(used, b) := st in
      used <- wr used i true ;;
      r <- obj_parents k i b ;;
      let '(subs, b) := r in
      st <- zfor (i + 1) N
              (fun j st =>
                 let '(used, b) := st in
                 u <- rd used j ;;
                 if u : bool then Ret (used, b)
                 else
                   r <- obj_parents k j b ;;
                   let '(jsubs, b) := r in
                   if all_in jsubs subs then propose_ro fuel' k N j (used, b)
                   else Ret (used, b)) (used, b) ;;
      let '(used, b) := st in
      l <- rd b (Z.of_nat k) ;;
      p <- rd (lv_parts l) i ;;
      b <- wr b (Z.of_nat k) (mkLev (lv_ip l) (lv_map l) (lv_parts l) (lv_ro l ++ [p])) ;;
      Ret (used, b)
  end.

(* CombinatorialBankLevel.hpp 63-66, 115-121 *)
Definition get_ro (k : nat) (b : bank) : outcome (list part * bank) :=
  l <- rd b (Z.of_nat k) ;;
  match lv_ro l with
  | _ :: _ => Ret (lv_ro l, b)
  | [] =>
      r <- get_parts k b ;;
      let '(ps, b) := r in
      let N := zlen ps in
      st <- zfor 0 N
              (fun i st =>
                 let '(used, b) := st in
                 u <- rd used i ;;
                 if u : bool then Ret (used, b) else propose_ro (S (length ps)) k N i (used, b))
              (repeat false (length ps), b) ;;
      let '(_, b) := st in
      l <- rd b (Z.of_nat k) ;;
      Ret (lv_ro l, b)
  end.

(* CombinatorialBank.hpp 49-58.  n<=levels.size() compares as unsigned: a negative n goes to resize,
   which throws std::length_error; n=0 reads levels[-1]. *)
Definition bank_level (n : Z) (b : bank) : outcome (nat * bank) :=
  if n <? 0 then Throw
  else if n =? 0 then UB
  else
    let b := if n <=? zlen b then b else b ++ repeat lev_new (Z.to_nat (n - zlen b)) in
    Ret (Z.to_nat (n - 1), b).

(* CombinatorialBank.hpp 31-44 *)
Definition bank_partitions (n : Z) (b : bank) : outcome (list part * bank) :=
  r <- bank_level n b ;; let '(k, b) := r in get_parts k b.
Definition bank_tableaux (lambda : part) (b : bank) : outcome (list tab * bank) :=
  r <- bank_level (ip_getn lambda) b ;;
  let '(k, b) := r in
  r <- get_obj k lambda b ;;
  let '(id, b) := r in
  get_tabs k id b.
Definition bank_ro (n : Z) (b : bank) : outcome (list part * bank) :=
  r <- bank_level n b ;; let '(k, b) := r in get_ro k b.

(* a user's sequence of calls, starting from an empty bank *)
Inductive cquery :=
| QParts (n : Z)
| QTabs (lambda : part)
| QRO (n : Z).

Inductive canswer :=
| AParts (l : list part)
| ATabs (l : list tab).

Definition cstep (q : cquery) (b : bank) : outcome (canswer * bank) :=
  match q with
  | QParts n => r <- bank_partitions n b ;; Ret (AParts (fst r), snd r)
  | QTabs lambda => r <- bank_tableaux lambda b ;; Ret (ATabs (fst r), snd r)
  | QRO n => r <- bank_ro n b ;; Ret (AParts (fst r), snd r)
  end.

Fixpoint crun (qs : list cquery) (b : bank) : outcome (list canswer * bank) :=
  match qs with
  | [] => Ret ([], b)
  | q :: qs' =>
      r <- cstep q b ;;
      let '(a, b) := r in
      r <- crun qs' b ;;
      let '(l, b) := r in
      Ret (a :: l, b)
  end.
