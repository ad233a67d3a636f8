(** What an algorithm string means for given declarations (C51). *)
From Verif Require Import Base AlgParser AlgEval.
Local Open Scope N_scope.

(** type [ty] has an algorithm [n] with the options [sig] *)
Definition declared (T : types) (ty n : str) (sig : list darg) : Prop :=
  exists l doc, ty_find T ty = Some l /\ In (DAlg n sig doc) l.
(** no type has two algorithms of one name, no algorithm two options of one name *)
Definition consistent (T : types) : Prop :=
  forall ty l, ty_find T ty = Some l -> NoDup (map dn_name l) /\ forall d, In d l -> NoDup (map da_name (dn_args d)).

(** the value [v] last given for [x] by keyword *)
Definition last_given (kws : list (str * value)) (x : str) (v : value) : Prop :=
  exists l r, kws = l ++ (x, v) :: r /\ ~ In x (map fst r).
(** An option is assigned what was last given for it by keyword; otherwise what was given at its position; otherwise its
    default.  The empty string does not count as a value. *)
Definition assigned (pos : list value) (kws : list (str * value)) (i : nat) (a : darg) (v : value) : Prop :=
  is_empty v = false /\
  (last_given kws (da_name a) v \/
   ~ In (da_name a) (map fst kws) /\ nth_error pos i = Some v \/
   ~ In (da_name a) (map fst kws) /\ nth_error pos i = None /\ da_default a = Some v).

(** [means T pattern ty v o]: as a value of type [ty], the syntax tree [v] means [o].  With [pattern], dynamic options are left out. *)
Inductive means (T : types) (pattern : bool) : str -> value -> ov -> Prop :=
| Means_string : forall s, means T pattern str_string (VStr s) (OStr s)
| Means_call : forall ty n pos kws sig opts sel,
    ty <> str_string -> declared T ty n sig ->
    (length pos <= length sig)%nat ->
    (forall k v, In (k, v) kws -> In k (map da_name sig)) ->
    means_options T pattern pos kws 0 sig opts sel ->
    means T pattern ty (VInv n (map (fun v => (None, v)) pos ++ map (fun '(k, v) => (Some k, v)) kws)) (OAlg n opts (Pat n sel))
(** the options from number [i] on, and the selections of the static ones among them *)
with means_options (T : types) (pattern : bool) : list value -> list (str * value) -> nat -> list darg ->
    list (str * ov) -> list (str * pat) -> Prop :=
| Options_end : forall pos kws i, means_options T pattern pos kws i [] [] []
| Options_left_out : forall pos kws i a sig opts sel,
    pattern = true -> da_static a = false -> means_options T pattern pos kws (S i) sig opts sel ->
    means_options T pattern pos kws i (a :: sig) opts sel
| Options_dynamic : forall pos kws i a sig opts sel v o,
    pattern = false -> da_static a = false -> assigned pos kws i a v -> means T pattern (da_type a) v o ->
    means_options T pattern pos kws (S i) sig opts sel ->
    means_options T pattern pos kws i (a :: sig) ((da_name a, o) :: opts) sel
| Options_static : forall pos kws i a sig opts sel v n oo p,
    da_static a = true -> assigned pos kws i a v -> means T pattern (da_type a) v (OAlg n oo p) ->
    means_options T pattern pos kws (S i) sig opts sel ->
    means_options T pattern pos kws i (a :: sig) ((da_name a, OAlg n oo p) :: opts) ((da_name a, p) :: sel).
Scheme means_ind2 := Induction for means Sort Prop
  with means_options_ind2 := Induction for means_options Sort Prop.
Combined Scheme means_mutind from means_ind2, means_options_ind2.

(** The static selection that a type fixes: the names of its template arguments. *)
Fixpoint selection_of (v : value) : pat :=
  match v with
  | VStr s => Pat s []
  | VInv n args => Pat n (map (fun a => (match fst a with Some k => k | None => [] end, selection_of (snd a))) args)
  end.
(** The string that asks for a selection. *)
Fixpoint pat_value (p : pat) : value := let 'Pat n args := p in VInv n (map (fun a => (Some (fst a), pat_value (snd a))) args).

(** every dynamic option of the selected algorithms has a default that is a string *)
Inductive has_defaults (T : types) : str -> pat -> Prop :=
| Has_defaults : forall ty n args sig, declared T ty n sig ->
    (forall a, In a sig -> da_static a = false -> da_type a = str_string /\ exists s, s <> [] /\ da_default a = Some (VStr s)) ->
    (forall a k p, In a sig -> da_static a = true -> k = da_name a -> In (k, p) args -> has_defaults T (da_type a) p) ->
    has_defaults T ty (Pat n args).

(** the names in a selection can be written *)
Inductive names_ok (ident : str -> Prop) : pat -> Prop :=
| Names_ok : forall n args, ident n -> (forall k p, In (k, p) args -> ident k /\ names_ok ident p) -> names_ok ident (Pat n args).

(** registries a program can build *)
Inductive reachable : registry -> Prop :=
| Reach_new : forall root, reachable (Reg root [] [])
| Reach_register : forall R m i fuel R', reachable R -> built m -> register fuel R m i = EOk R' -> reachable R'.
(** a meta and those of its template arguments, and so on *)
Inductive within : meta -> meta -> Prop :=
| W_self : forall m, within m m
| W_sub : forall s t m, within s t -> In t (m_subs m) -> within s m.
