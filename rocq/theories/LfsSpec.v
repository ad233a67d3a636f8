(** What a coder on a shared bit stream must do, and what a set of rules and their uses must
    satisfy to describe a text (specification only). *)
From Verif Require Import Base BitIO IntCodes IntCodesProofs Coders BitCoders.
Local Open Scope nat_scope.

(** [bisR s l] (IntCodesProofs): the stream [s] still holds exactly the bits [l].
    The decoder's constructor consumes exactly what the encoder's wrote; every call in range (a literal
    must have been announced) writes at least one bit and is decoded to its value, consuming
    exactly those bits. *)
Definition bcoder_ok (P : list N -> Prop) (c : bcoder) : Prop :=
  forall lits, bytes_ok lits -> P lits ->
  exists st h d, bc_init c lits = Some (st, h) /\
    (forall s rest, bisR s (h ++ rest) -> exists s', bc_open c s = Some (d, s') /\ bisR s' rest) /\
    (forall v r, call_ok (v, r) -> (r = RLit -> In v lits) ->
       exists b, bc_enc c st (v, r) = Some b /\ b <> [] /\
         forall s rest, bisR s (b ++ rest) -> exists s', bc_dec c r d s = Some (v, s') /\ bisR s' rest).

(** [l] characters of the text from [p] on *)
Definition piece (text : list N) (p l : nat) : list N := firstn l (skipn p text).

(** the uses [ns] of the rules [d]: in order and not overlapping from [pos] on, inside the text, each
    naming a rule that spells the text there *)
Fixpoint uses_ok (text : list N) (d : list (nat * nat)) (pos : nat) (ns : list (nat * nat * nat)) : Prop :=
  match ns with
  | [] => True
  | (st, sym, l) :: ns' =>
      pos <= st /\ st + l <= length text /\
      (exists p, nth_error d sym = Some (p, l) /\ piece text p l = piece text st l) /\
      uses_ok text d (st + l) ns'
  end.
(** the rules: nonempty, inside the text, longest first *)
Definition rules_ok (text : list N) (d : list (nat * nat)) : Prop :=
  Forall (fun r => 1 <= snd r /\ fst r + snd r <= length text) d /\
  ForallOrdPairs (fun a b => snd b <= snd a) d.
