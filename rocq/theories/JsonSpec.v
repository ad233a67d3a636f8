(** A JSON parser (RFC 8259), written independently of the model: null, true, false, fractions,
    exponents and \u escapes are left out (they are rejected). *)
From Coq Require Import ZArith.
From Verif Require Import Base.
Local Open Scope N_scope.

Inductive json := Num (z : Z) | Str (s : list N) | Arr (l : list json) | Obj (fs : list (list N * json)).

Definition is_ws (c : N) : bool := (c =? 32) || (c =? 9) || (c =? 10) || (c =? 13).
Fixpoint ws (t : list N) : list N := match t with c :: r => if is_ws c then ws r else t | [] => [] end.

(** behind a backslash *)
Definition unescape (c : N) : option N :=
  if (c =? 34) || (c =? 92) || (c =? 47) then Some c
  else if c =? 98 then Some 8 else if c =? 102 then Some 12 else if c =? 110 then Some 10
  else if c =? 114 then Some 13 else if c =? 116 then Some 9 else None.
(** behind the opening quote: contents and what follows the closing quote *)
Fixpoint pstring (t : list N) : option (list N * list N) :=
  match t with
  | [] => None
  | c :: r =>
      if c =? 34 then Some ([], r)
      else if c =? 92 then
        match r with
        | [] => None
        | e :: r' => do d <- unescape e; do (s, q) <- pstring r'; Some (d :: s, q)
        end
      else if c <? 32 then None
      else do (s, q) <- pstring r; Some (c :: s, q)
  end.
Definition is_digit (c : N) : bool := (48 <=? c) && (c <=? 57).
Fixpoint span_digits (t : list N) : list N * list N :=
  match t with
  | c :: r => if is_digit c then let (d, q) := span_digits r in (c :: d, q) else ([], t)
  | [] => ([], [])
  end.
(** no empty digit string, no leading zeros *)
Definition pnat (t : list N) : option (N * list N) :=
  match span_digits t with
  | ([], _) => None
  | (c :: d, q) => if (c =? 48) && negb (match d with [] => true | _ => false end) then None
                   else Some (fold_left (fun a d => a * 10 + (d - 48)) (c :: d) 0, q)
  end.
Definition pnum (t : list N) : option (Z * list N) :=
  match t with
  | c :: r => if c =? 45 then do (n, q) <- pnat r; Some ((- Z.of_N n)%Z, q)
              else do (n, q) <- pnat t; Some (Z.of_N n, q)
  | [] => None
  end.
Definition starts (c : N) (t : list N) : option (list N) :=
  match t with x :: r => if x =? c then Some r else None | [] => None end.

Fixpoint pval (fuel : nat) (t : list N) : option (json * list N) :=
  match fuel with
  | O => None
  | S f =>
      let t := ws t in
      match starts 34 t with
      | Some r => do (s, q) <- pstring r; Some (Str s, q)
      | None =>
      match starts 91 t with
      | Some r => match starts 93 (ws r) with
                  | Some q => Some (Arr [], q)
                  | None => do (l, q) <- pelems f r; Some (Arr l, q)
                  end
      | None =>
      match starts 123 t with
      | Some r => match starts 125 (ws r) with
                  | Some q => Some (Obj [], q)
                  | None => do (l, q) <- pfields f r; Some (Obj l, q)
                  end
      | None => do (z, q) <- pnum t; Some (Num z, q)
      end end end
  end
with pelems (fuel : nat) (t : list N) : option (list json * list N) :=
  match fuel with
  | O => None
  | S f =>
      do (v, q) <- pval f t;
      match starts 44 (ws q) with
      | Some q => do (l, q) <- pelems f q; Some (v :: l, q)
      | None => do q <- starts 93 (ws q); Some ([v], q)
      end
  end
with pfields (fuel : nat) (t : list N) : option (list (list N * json) * list N) :=
  match fuel with
  | O => None
  | S f =>
      do r <- starts 34 (ws t);
      do (k, q) <- pstring r;
      do r <- starts 58 (ws q);
      do (v, q) <- pval f r;
      match starts 44 (ws q) with
      | Some q => do (l, q) <- pfields f q; Some ((k, v) :: l, q)
      | None => do q <- starts 125 (ws q); Some ([(k, v)], q)
      end
  end.
(** a whole document *)
Definition parse (t : list N) : option json :=
  do (v, q) <- pval (S (length t)) t;
  match ws q with [] => Some v | _ => None end.

(** characters that a JSON string may contain unescaped, quotes excepted *)
Definition plain_char (c : N) : Prop := 32 <= c /\ c <> 34 /\ c <> 92.
