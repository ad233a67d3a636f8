(** The syntax of algorithm strings, as a grammar (C41). *)
From Verif Require Import Base AlgParser.
Local Open Scope N_scope.

Definition blank (c : N) : Prop := In c [9; 10; 13; 32].
Definition blanks (w : list N) : Prop := Forall blank w.
Definition letter (c : N) : Prop := 65 <= c <= 90 \/ 97 <= c <= 122 \/ c = 95.
Definition digit (c : N) : Prop := 48 <= c <= 57.
(** the characters of a number: digits, minus and point, in any order *)
Definition numeric (c : N) : Prop := digit c \/ c = 45 \/ c = 46.
Definition identifier (s : list N) : Prop :=
  exists c r, s = c :: r /\ letter c /\ Forall (fun c => letter c \/ digit c) r.
Definition boolean (s : list N) : Prop := s = str_true \/ s = str_false.

(** Every rule relates a piece of text to what it means; the flag tells whether the piece ends with a number.
    Blanks behind a number are part of it, so [gap] allows them only elsewhere. *)
Definition gap (num : bool) (w : list N) : Prop := blanks w /\ (num = true -> w = []).
Inductive single : list N -> value -> bool -> Prop :=
| S_double : forall s, ~ In 34 s -> single (34 :: s ++ [34]) (VStr s) false
| S_quoted : forall s, ~ In 39 s -> single (39 :: s ++ [39]) (VStr s) false
| S_number : forall c s, numeric c -> Forall (fun c => numeric c \/ blank c) s -> single (c :: s) (VStr (c :: s)) true
| S_bool : forall s, boolean s -> single s (VStr s) false
| S_name : forall n, identifier n -> ~ boolean n -> single n (VInv n []) false
| S_call : forall n w s args, identifier n -> ~ boolean n -> blanks w -> arguments s args ->
    single (n ++ w ++ 40 :: s) (VInv n args) false
(** what follows the opening parenthesis, up to the closing one *)
with arguments : list N -> list arg -> Prop :=
| A_none : forall w, blanks w -> arguments (w ++ [41]) []
| A_first : forall s a e w r args, argument s a e -> gap e w -> more r args -> arguments (s ++ w ++ r) (a :: args)
(** what follows an argument: a comma behind the last argument is allowed *)
with more : list N -> list arg -> Prop :=
| M_end : more [41] []
| M_comma : forall w, blanks w -> more (44 :: w ++ [41]) []
| M_next : forall s a e w r args, argument s a e -> gap e w -> more r args -> more (44 :: s ++ w ++ r) (a :: args)
with argument : list N -> arg -> bool -> Prop :=
| G_positional : forall w s v e, blanks w -> chained s v e -> argument (w ++ s) (None, v) e
| G_keyword : forall w k w1 w2 s v e, blanks w -> identifier k -> blanks w1 -> blanks w2 -> chained s v e ->
    argument (w ++ k ++ w1 ++ 61 :: w2 ++ s) (Some k, v) e
(** a : b : c stands for chain(chain(a, b), c) *)
with chained : list N -> value -> bool -> Prop :=
| C_one : forall s v e, single s v e -> chained s v e
| C_more : forall s v e w1 w2 s2 v2 e2, chained s v e -> gap e w1 -> blanks w2 -> single s2 v2 e2 ->
    chained (s ++ w1 ++ 58 :: w2 ++ s2) (VInv str_chain [(None, v); (None, v2)]) e2.

(** [s] spells [v] *)
Definition spells (s : list N) (v : value) (num : bool) : Prop :=
  exists w s', s = w ++ s' /\ blanks w /\ chained s' v num.

(** what must not follow a piece of text so that it ends there: a letter or digit, an opening parenthesis or
    a colon; behind a number, a number or a blank or the end of the text *)
Definition ends_before (num : bool) (rest : list N) : Prop :=
  if num then exists c r, rest = c :: r /\ ~ numeric c /\ ~ blank c /\ c <> 58
  else (forall c r, rest = c :: r -> ~ letter c /\ ~ digit c) /\
       (forall w c r, rest = w ++ c :: r -> blanks w -> c <> 40 /\ c <> 58).

(** values that can be written: names and keywords are identifiers, names are not true or false, strings do not
    contain the double quote they are printed between *)
Inductive writable : value -> Prop :=
| W_str : forall s, ~ In 34 s -> writable (VStr s)
| W_inv : forall n args, identifier n -> ~ boolean n ->
    (forall k v, In (Some k, v) args -> identifier k) -> (forall k v, In (k, v) args -> writable v) ->
    writable (VInv n args).
