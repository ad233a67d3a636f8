(** Specification of the phase statistics: what a program did, and the report it should get. *)
From Coq Require Import ZArith.
From Verif Require Import Base Stat.
Local Open Scope Z_scope.

(** What happens while a phase is the current one: memory is allocated (positive) or freed
    (negative), tracking is paused while some memory is allocated and freed, a statistic is logged,
    or a nested phase runs, from the clock reading [t0] until [t1]. *)
Inductive ev :=
| EMem (d : Z)
| EUntracked (ds : list Z)
| ELog (k v : list N)
| EPhase (title : list N) (t0 t1 : Z) (body : list ev).

(** the calls this makes *)
Definition mem_op (d : Z) : op := if 0 <=? d then Alloc d else Free (- d).
Fixpoint ev_ops (e : ev) : list op :=
  match e with
  | EMem d => [mem_op d]
  | EUntracked ds => Pause :: map mem_op ds ++ [Resume]
  | ELog k v => [Log k v]
  | EPhase t a b body => Start t a :: flat_map ev_ops body ++ [End b]
  end.

(** all tracked memory changes, in order, including those of nested phases *)
Fixpoint deltas (e : ev) : list Z :=
  match e with
  | EMem d => [d]
  | EUntracked _ | ELog _ _ => []
  | EPhase _ _ _ body => flat_map deltas body
  end.
Definition total (ds : list Z) : Z := fold_right Z.add 0 ds.
(** the largest total of a prefix, see [max_prefix_spec] *)
Fixpoint max_prefix (ds : list Z) : Z :=
  match ds with [] => 0 | d :: r => Z.max 0 (d + max_prefix r) end.
Definition logged (e : ev) : list (list N * list N) :=
  match e with ELog k v => [(k, v)] | _ => [] end.

(** the report: a nested phase's offset is the parent's memory when it started *)
Fixpoint spec_phase (off : Z) (e : ev) : list pdata :=
  match e with
  | EPhase t a b body =>
      [PD t a b off (total (flat_map deltas body)) (max_prefix (flat_map deltas body)) (flat_map logged body)
          ((fix subs (before : Z) (l : list ev) : list pdata :=
              match l with
              | [] => []
              | x :: r => spec_phase before x ++ subs (before + total (deltas x)) r
              end) 0 body)]
  | _ => []
  end.
Fixpoint spec_subs (before : Z) (l : list ev) : list pdata :=
  match l with
  | [] => []
  | x :: r => spec_phase before x ++ spec_subs (before + total (deltas x)) r
  end.
