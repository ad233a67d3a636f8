(** What a user expects of the calls on a hash map: an insert that never overwrites. *)
From Verif Require Import Base Tries HashMap.
Local Open Scope N_scope.

(** a finite map, with the number of its keys *)
Record fmap := mk_fmap { f_get : N -> option N; f_count : N }.
Definition f_empty : fmap := mk_fmap (fun _ => None) 0.
Definition f_add (f : fmap) (k v : N) : fmap :=
  mk_fmap (fun q => if q =? k then Some v else f_get f q) (f_count f + 1).
(** the answers the calls must give *)
Fixpoint map_answers (f : fmap) (ops : list hop) : list hans :=
  match ops with
  | [] => []
  | HInsert k v _ :: ops =>
      match f_get f k with
      | Some x => AInsert x false :: map_answers f ops
      | None => AInsert v true :: map_answers (f_add f k v) ops
      end
  | HReserve _ _ :: ops => ADone :: map_answers f ops
  | HEntries :: ops => AEntries (f_count f) :: map_answers f ops
  end.

(** the number of insert calls; whether a call is reserve *)
Fixpoint inserts (ops : list hop) : N :=
  match ops with [] => 0 | HInsert _ _ _ :: ops => 1 + inserts ops | _ :: ops => inserts ops end.
Definition is_reserve (o : hop) : bool := match o with HReserve _ _ => true | _ => false end.
(** no call inserts the value that marks empty slots (a DCHECK, Hash.hpp:522) *)
Definition proper_values (ops : list hop) : Prop :=
  forall k v rem, In (HInsert k v rem) ops -> v <> Tries.undef_id.
