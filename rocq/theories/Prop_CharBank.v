(* Properties C60 and C71: characters through the group object and the character bank: Sn/Sn.hpp character,
   Sn/SnCharBank.hpp, Sn/SnCharacter.hpp, Sn/Sn_CharacterHelper.hpp, Sn/SnClassFunction.hpp. *)
From Coq Require Import ZArith List Bool Lia Reals.
From Verif Require Import Model_Base Model_Part Model_Comb Model_Tab Model_Irrep Model_Char.
From Verif Require Import Spec_Perm Spec_Part Spec_Rep Spec_Char.
From Verif Require Import Proof_Base Proof_TabProps Proof_CharBank.
Import Model_Char ListNotations.
Open Scope Z_scope.

(* after any history of requests, for any groups, every answer is a character: of the partition asked for when the
   request names one, of the partition (n) for Sn(n).character(i), of some partition of n for Sn(n).characters[i] *)
Theorem C71_every_history : forall qs, Forall legal_chq qs -> exists fs b, chrun qs [] = Ret (fs, b) /\
  Forall2 (fun q f => match q with
    | ChNew l => exists n, is_part n l /\ character_of n l f
    | ChOf n l => character_of n l f
    | ChAt n i => exists l, is_part n l /\ character_of n l f
    | ChNo n i => character_of n [n] f
    end) qs fs.
Proof. exact ch_answers. Qed.
Print Assumptions C71_every_history.

(* characters[i] numbers the characters of S_n: each has exactly one number, and the numbers never change once
   characters[i] was asked for *)
Theorem C71_numbering_is_stable : forall qs n i0, Forall legal_chq (qs ++ [ChAt n i0]) ->
  exists K, lists_parts n K /\ forall qs' i, Forall legal_chq qs' -> 0 <= i < Z.of_nat (length K) ->
    exists fs b f, chrun ((qs ++ [ChAt n i0]) ++ qs' ++ [ChAt n i]) [] = Ret (fs ++ [f], b) /\ character_of n (nth (Z.to_nat i) K []) f.
Proof. exact numbering_stable. Qed.
Print Assumptions C71_numbering_is_stable.

(* if no character of S_n was asked for before, the numbers are those of the partitions *)
Theorem C71_fresh_numbering : forall qs n i L, Forall legal_chq (qs ++ [ChAt n i]) ->
  (forall q, In q qs -> match q with ChNew l => zsum l | ChOf m _ | ChAt m _ | ChNo m _ => m end <> n) -> integer_partitions n = Ret L ->
  exists fs b f, chrun (qs ++ [ChAt n i]) [] = Ret (fs ++ [f], b) /\ character_of n (nth (Z.to_nat i) L []) f.
Proof. exact numbering_fresh. Qed.
Print Assumptions C71_fresh_numbering.

(* otherwise they are not: SnCharacter({1,1}), then Sn(2).characters[0] is the character of {1,1} *)
Theorem C71_numbering_refuted : ~ (forall qs n i L fs f b, Forall legal_chq (qs ++ [ChAt n i]) -> integer_partitions n = Ret L ->
  chrun (qs ++ [ChAt n i]) [] = Ret (fs ++ [f], b) -> character_of n (nth (Z.to_nat i) L []) f).
Proof. exact numbering_refuted. Qed.
Print Assumptions C71_numbering_refuted.

(* the character determines the partition *)
Theorem C71_characters_differ : forall n a b f, 1 <= n -> is_part n a -> is_part n b -> character_of n a f -> character_of n b f -> a = b.
Proof. exact character_of_inj. Qed.
Print Assumptions C71_characters_differ.

Example C71_example : Forall legal_chq [ChNew [2; 1]; ChOf 4 [2; 2]; ChAt 4 3; ChNo 5 2; ChAt 3 2] /\ is_part 3 [2; 1] /\ is_part 3 [3].
Proof.
  assert (is_part 3 [2; 1]) as P by (apply decb_part; reflexivity). assert (is_part 4 [2; 2]) as P' by (apply decb_part; reflexivity). split; [|split; [auto|apply decb_part; reflexivity]].
  constructor; [exists 3; split; [lia|auto]|]. constructor; [split; [lia|auto]|]. constructor; [split; [lia|]; exists [[4]; [3; 1]; [2; 2]; [2; 1; 1]; [1; 1; 1; 1]]; split; [reflexivity|cbn; lia]|]. constructor; [cbn; lia|].
  constructor; [split; [lia|]; exists [[3]; [2; 1]; [1; 1; 1]]; split; [reflexivity|cbn; lia]|constructor].
Qed.
Example C71_example_fresh : Forall legal_chq ([ChNew [2; 1]] ++ [ChAt 4 3]) /\ (forall q, In q [ChNew [2; 1]] -> match q with ChNew l => zsum l | ChOf m _ | ChAt m _ | ChNo m _ => m end <> 4).
Proof.
  split; [|intros q [<-|[]]; cbn; lia]. constructor; [exists 3; split; [lia|apply decb_part; reflexivity]|]. constructor; [|constructor]. split; [lia|]. exists [[4]; [3; 1]; [2; 2]; [2; 1; 1]; [1; 1; 1; 1]]. split; [reflexivity|cbn; lia].
Qed.

(* Sn(n).character(i) is the character of (n), whatever i is and whatever was asked before *)
Theorem C60_always_the_trivial_character : forall n i qs, Forall legal_chq qs -> 1 <= n ->
  exists fs b f, chrun (qs ++ [ChNo n i]) [] = Ret (fs ++ [f], b) /\ character_of n [n] f.
Proof. exact character_no. Qed.
Print Assumptions C60_always_the_trivial_character.

(* so it is not the character of irrep number i, for any i >= 1 *)
Theorem C60_never_the_ith_refuted : forall n i L, 1 <= n -> integer_partitions n = Ret L -> 1 <= i < Z.of_nat (length L) ->
  ~ exists f b, chrun [ChNo n i] [] = Ret ([f], b) /\ character_of n (nth (Z.to_nat i) L []) f.
Proof. exact character_no_refuted. Qed.
Print Assumptions C60_never_the_ith_refuted.

Example C60_example : integer_partitions 4 = Ret [[4]; [3; 1]; [2; 2]; [2; 1; 1]; [1; 1; 1; 1]] /\ 1 <= 2 < Z.of_nat (length [[4]; [3; 1]; [2; 2]; [2; 1; 1]; [1; 1; 1; 1]]).
Proof. split; [reflexivity|cbn; lia]. Qed.
