(* Value semantics: what a client of Permutation and IntegerPartition expects of a program that
   creates, copies, assigns, changes and destroys objects.  There is no heap here: every variable
   holds its own entries, so no statement on one variable can affect another. *)
From Coq Require Import ZArith List Bool.
From Verif Require Import Model_Base.
Import ListNotations.
Open Scope Z_scope.

(* [Cells l]: an object with the entries l, where None is an entry not yet written.
   [Gone n]: an object that was moved from, or a default constructed partition (n=0): it reports
   size n and has no entries. *)
Inductive val := Gone (n : Z) | Cells (l : list (option Z)).

Definition store := Z -> option val.
Definition empty : store := fun _ => None.
Definition put (st : store) (v : Z) (x : option val) : store := fun w => if w =? v then x else st w.

Definition size (x : val) : Z :=
  match x with Gone n => n | Cells l => Z.of_nat (length l) end.

(* entry number i, if there is one and it has been written *)
Definition entry (x : val) (i : Z) : option Z :=
  match x with
  | Gone _ => None
  | Cells l => if 0 <=? i then match nth_error l (Z.to_nat i) with Some e => e | None => None end else None
  end.

(* l with entry i replaced *)
Fixpoint replace (l : list (option Z)) (i : nat) (x : option Z) : list (option Z) :=
  match l, i with
  | [], _ => []
  | _ :: l', O => x :: l'
  | y :: l', S i' => y :: replace l' i' x
  end.

(* all the entries, if all have been written *)
Fixpoint ints (l : list (option Z)) : option (list Z) :=
  match l with
  | [] => Some []
  | Some x :: l' => match ints l' with Some t => Some (x :: t) | None => None end
  | None :: _ => None
  end.

Definition contents (x : val) : option (list Z) :=
  match x with
  | Gone n => if n =? 0 then Some [] else None
  | Cells l => ints l
  end.

Definition full (l : list Z) : val := Cells (map Some l).

(* the statements a client can write; each names the variables it works on *)
Inductive op :=
| NewDefault (v : Z)                 (* IntegerPartition v; *)
| NewRaw (v n : Z)                   (* Permutation v(n); *)
| NewList (v : Z) (l : list Z)       (* Permutation v({...}); IntegerPartition v({...}); *)
| NewIdentity (v n : Z)              (* Permutation v(n,fill_identity()); *)
| NewOneRow (v n : Z)                (* IntegerPartition v(n,fill_identity()); *)
| NewZero (v k : Z)                  (* IntegerPartition v(k,fill_zero()); *)
| Copy (v x : Z)                     (* Permutation v(x); IntegerPartition v(x); *)
| Move (v x : Z)                     (* Permutation v(std::move(x)); *)
| PAssign (v x : Z)                  (* v=x; for permutations *)
| IAssign (v x : Z)                  (* v=x; for partitions *)
| MoveAssign (v x : Z)               (* v=std::move(x); *)
| SetAt (v i a : Z)                  (* v[i]=a; *)
| Add (v r m : Z)                    (* v.add(r,m); *)
| Remove (v r m : Z)                 (* v.remove(r,m); *)
| TimesEq (v x : Z)                  (* v*=x; *)
| Destroy (v : Z).                   (* end of v's lifetime *)

Definition names (o : op) : list Z :=
  match o with
  | NewDefault v | NewRaw v _ | NewList v _ | NewIdentity v _ | NewOneRow v _ | NewZero v _
  | SetAt v _ _ | Add v _ _ | Remove v _ _ | Destroy v => [v]
  | Copy v x | Move v x | PAssign v x | IAssign v x | MoveAssign v x | TimesEq v x => [v; x]
  end.

(* the statements v=v (copy assignment) and v*=v *)
Definition self_op (o : op) : bool :=
  match o with
  | PAssign v x | IAssign v x | TimesEq v x => v =? x
  | _ => false
  end.

(* a new object in a variable that holds none *)
Definition create (st : store) (v : Z) (x : val) : outcome store :=
  match st v with None => Ret (put st v (Some x)) | Some _ => UB end.

(* the entries of t as arguments of x: the list of x(t 0), x(t 1), ... counted from 1 *)
Fixpoint through (x : val) (t : list (option Z)) : option (list Z) :=
  match t with
  | [] => Some []
  | Some a :: t' =>
      match entry x (a - 1), through x t' with
      | Some c, Some r => Some (c :: r)
      | _, _ => None
      end
  | None :: _ => None
  end.

(* Ret: the statement is meaningful and this is the result.  Throw: new[] refuses a negative size.
   UB: the statement has no meaning (it touches an object outside its lifetime, or an entry that
   does not exist or was never written). *)
Definition vexec (o : op) (st : store) : outcome store :=
  match o with
  | NewDefault v => create st v (Gone 0)
  | NewRaw v n => if n <? 0 then Throw else create st v (Cells (repeat None (Z.to_nat n)))
  | NewList v l => create st v (full l)
  | NewIdentity v n => if n <? 0 then Throw else create st v (full (map Z.of_nat (seq 1 (Z.to_nat n))))
  | NewOneRow v n => create st v (full [n])
  | NewZero v k => if k <? 0 then Throw else create st v (full (repeat 0 (Z.to_nat k)))
  | Copy v x =>
      match st x with
      | Some a => match contents a with Some l => create st v (full l) | None => UB end
      | None => UB
      end
  | Move v x =>
      match st x with
      | Some a => create (put st x (Some (Gone (size a)))) v a
      | None => UB
      end
  | PAssign v x | IAssign v x =>
      match st v, st x with
      | Some _, Some a => match contents a with Some l => Ret (put st v (Some (full l))) | None => UB end
      | _, _ => UB
      end
  | MoveAssign v x =>
      match st v, st x with
      | Some _, Some a =>
          if v =? x then Ret st else Ret (put (put st v (Some a)) x (Some (Gone (size a))))
      | _, _ => UB
      end
  | SetAt v i a =>
      match st v with
      | Some (Cells l) =>
          if (0 <=? i) && (i <? Z.of_nat (length l))
          then Ret (put st v (Some (Cells (replace l (Z.to_nat i) (Some a))))) else UB
      | _ => UB
      end
  | Add v r m =>
      match st v with
      | Some x =>
          if r <? size x then
            match x, entry x r with
            | Cells l, Some a => Ret (put st v (Some (Cells (replace l (Z.to_nat r) (Some (a + m))))))
            | _, _ => UB
            end
          else
            match contents x with
            | Some l => Ret (put st v (Some (full (l ++ [m]))))
            | None => UB
            end
      | None => UB
      end
  | Remove v r m =>
      match st v with
      | Some x =>
          match x, entry x r with
          | Cells l, Some a =>
              let l' := replace l (Z.to_nat r) (Some (a - m)) in
              match entry (Cells l') (size x - 1) with
              | Some z =>
                  if z =? 0 then
                    match ints (removelast l') with
                    | Some t => Ret (put st v (Some (full t)))
                    | None => UB
                    end
                  else Ret (put st v (Some (Cells l')))
              | None => UB
              end
          | _, _ => UB
          end
      | None => UB
      end
  | TimesEq v x =>
      match st v, st x with
      | Some (Gone n), Some _ => if n =? 0 then Ret st else UB
      | Some (Cells t), Some b =>
          match through b t with Some r => Ret (put st v (Some (full r))) | None => UB end
      | _, _ => UB
      end
  | Destroy v =>
      match st v with Some _ => Ret (put st v None) | None => UB end
  end.

Fixpoint vexec_all (h : list op) (st : store) : outcome store :=
  match h with
  | [] => Ret st
  | o :: h' => match vexec o st with Ret st' => vexec_all h' st' | Throw => Throw | Abort => Abort | UB => UB end
  end.
