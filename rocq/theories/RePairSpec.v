(** Specification of Re-Pair: replace a most frequent pair of neighbouring symbols by a new
    symbol, as long as some pair occurs twice.  Symbols below 256 are bytes. *)
From Verif Require Import Base Coders.
Local Open Scope N_scope.

Definition pair_eqb (p q : N * N) : bool := (fst p =? fst q) && (snd p =? snd q).
(** the number of positions at which the pair [d] occurs (occurrences may overlap) *)
Fixpoint occ (d : N * N) (l : list N) : nat :=
  match l with
  | a :: ((b :: _) as r) => ((if pair_eqb (a, b) d then 1 else 0) + occ d r)%nat
  | _ => O
  end.
(** replace occurrences from left to right *)
Fixpoint repl (d : N * N) (s : N) (l : list N) : list N :=
  match l with
  | a :: ((b :: r) as t) => if pair_eqb (a, b) d then s :: repl d s r else a :: repl d s t
  | _ => l
  end.
(** [derives text g l]: starting from [text], the rules [g] were introduced and [l] is left *)
Inductive derives (text : list N) : list (N * N) -> list N -> Prop :=
| dv_start : derives text [] text
| dv_step : forall g l d, derives text g l -> (2 <= occ d l)%nat -> (forall d', (occ d' l <= occ d l)%nat) ->
    derives text (g ++ [d]) (repl d (256 + N.of_nat (length g)) l).
(** no pair occurs twice *)
Definition irreducible (l : list N) : Prop := forall d, (occ d l <= 1)%nat.

(** what a symbol stands for *)
Inductive stands (g : list (N * N)) : N -> list N -> Prop :=
| st_byte : forall x, x < 256 -> stands g x [x]
| st_rule : forall x a b u v, 256 <= x -> nth_error g (N.to_nat (x - 256)) = Some (a, b) ->
    stands g a u -> stands g b v -> stands g x (u ++ v).

(** A coder that is correct whenever every literal that is encoded was among the literals
    announced at construction (and the announced ones satisfy [P]). *)
Definition coder_ok_ann (P : list N -> Prop) (c : coder) : Prop :=
  forall lits cs, Forall call_ok cs -> Forall (fun x => x < 256) lits -> P lits -> incl (lits_of cs) lits ->
  exists f s R, c_enc c lits cs = Some f /\ c_open c f = Some s /\ decodes c R /\ R s cs.
