(** Specification vocabulary for inputs (C49). *)
From Verif Require Import Base Escape PropEscape InputObj.
Local Open Scope nat_scope.

(** the bytes of [data] from [from] up to [to] (to the end without one) *)
Definition part (data : list N) (from : nat) (to : option nat) : list N :=
  firstn (match to with Some t => t | None => length data end - from) (skipn from data).
Definition in_range (data : list N) (from : nat) (to : option nat) : Prop :=
  from <= match to with Some t => t | None => length data end /\
  match to with Some t => t | None => length data end <= length data.
(** usable restrictions: a set of forbidden bytes that leaves enough replacements, and a
    null-termination flag *)
Definition usable (r : restr) : Prop := exists esc nt, r = mk_restrictions esc nt /\ bytes_ok esc /\ enough esc.
(** The reference: what a fresh Input of exactly these bytes, with these restrictions, shows. *)
Definition shows (r : restr) (bytes : list N) (out : list N) : Prop := restrict_view r bytes = Some out.

(** Deriving an Input from another: narrowing and restricting. *)
Inductive step := Narrow (from : nat) (to : option nat) | Restrict (r : restr).
Fixpoint derive (i : input) (l : list step) : input :=
  match l with
  | [] => i
  | Narrow f t :: l' => derive (in_slice i f t) l'
  | Restrict r :: l' => derive (in_restrict i r) l'
  end.
(** what the derived Input is meant to hold *)
Fixpoint meant (data : list N) (r : restr) (l : list step) : list N * restr :=
  match l with
  | [] => (data, r)
  | Narrow f t :: l' => meant (part data f t) r l'
  | Restrict r' :: l' => meant data (restr_or r r') l'
  end.
(** every narrowing is in range, and none without an end comes after one with an end *)
Fixpoint proper (bounded : bool) (data : list N) (l : list step) : Prop :=
  match l with
  | [] => True
  | Narrow f t :: l' => in_range data f t /\ (t = None -> bounded = false) /\
      proper (bounded || match t with Some _ => true | None => false end) (part data f t) l'
  | Restrict _ :: l' => proper bounded data l'
  end.

(** Accesses to a stream *)
Definition replacement_bytes : list N := [255; 254; 192; 193; 245; 246; 247; 248; 249; 250; 251; 252; 253]%N.
(** the byte that announces an escaped byte: the first replacement byte that is allowed *)
Definition escape_byte_of (r : restr) : N :=
  hd 255%N (filter (fun b => negb (existsb (N.eqb b) (r_esc r))) replacement_bytes).
(** The requests a stream Input answers correctly. *)
Definition good_request (data : list N) (f : nat) (t : option nat) (r : restr) : Prop :=
  usable r /\ in_range data f t /\
  (r_nt r = true -> t = None) /\
  (r_esc r = [] -> r_nt r = true -> ~ In 255%N data) /\
  (r_esc r <> [] -> f = 0 /\ t = None \/
     (f < length data \/ r_nt r = true) /\ (forall t', t = Some t' -> t' < length data) /\
     ~ In (escape_byte_of r) (firstn (match t with Some t' => t' | None => f end) data)).
(** every request of the history is good, objects have fresh names and are closed once *)
Fixpoint good_history (data : list N) (opened : list nat) (l : list access) : Prop :=
  match l with
  | [] => True
  | AView h f t r :: l' | AStream h f t r :: l' =>
      good_request data f t r /\ ~ In h opened /\ good_history data (h :: opened) l'
  | ASize f t r :: l' => good_request data f t r /\ good_history data opened l'
  | AClose h :: l' => In h opened /\ good_history data (remove Nat.eq_dec h opened) l'
  end.
(** no request changes the restrictions while an object is still open *)
Fixpoint no_conflict (cur : option restr) (opened : list nat) (l : list access) : Prop :=
  match l with
  | [] => True
  | AView h f t r :: l' | AStream h f t r :: l' =>
      (opened <> [] -> cur = Some r) /\ no_conflict (Some r) (h :: opened) l'
  | ASize f t r :: l' => (opened <> [] -> cur = Some r) /\ no_conflict (Some r) opened l'
  | AClose h :: l' => no_conflict cur (remove Nat.eq_dec h opened) l'
  end.
(** the right answer to each request *)
Definition right_answer (data : list N) (a : access) (x : answer) : Prop :=
  match a with
  | AView _ f t r | AStream _ f t r => exists b, x = RBytes b /\ shows r (part data f t) b
  | ASize f t r => exists b, x = RSize (length b) /\ shows r (part data f t) b
  | AClose _ => x = RDone
  end.
