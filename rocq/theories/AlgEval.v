(** Model of the evaluation of parsed algorithm strings (AlgorithmStringParser.hpp), of the declarations they are evaluated
    against (Meta.hpp, AlgorithmDecl.hpp), of static selections (AlgorithmPattern.hpp), of the registry (Registry.hpp) and of
    Builder::env (CreateAlgorithm.hpp).

    [EErr] stands for an exception or a failed CHECK, [EFuel] for a recursion that has not ended within [fuel] steps.
    Text data structure flags and the texts of error messages are left out. *)
From Verif Require Import Base AlgParser.
Local Open Scope N_scope.

Definition str : Type := list N.
Definition str_string : str := [115; 116; 114; 105; 110; 103].
Definition str_compressor : str := [99; 111; 109; 112; 114; 101; 115; 115; 111; 114].

Inductive eres (A : Type) := EOk (a : A) | EErr | EFuel.
Arguments EOk {A}. Arguments EErr {A}. Arguments EFuel {A}.
Definition ebind {A B} (m : eres A) (k : A -> eres B) : eres B :=
  match m with EOk a => k a | EErr => EErr | EFuel => EFuel end.
Notation "'edo' a <- m ; k" := (ebind m (fun a => k)) (at level 200, a pattern, m at level 100, k at level 200).
Definition lift {A} (m : option A) : eres A := match m with Some a => EOk a | None => EErr end.

(** AlgorithmDecl.hpp:58-104 Arg, :16-57 Algorithm (without the flags) *)
Record darg := DArg { da_name : str; da_static : bool; da_type : str; da_default : option value }.
Record dalg := DAlg { dn_name : str; dn_args : list darg; dn_doc : str }.
(** AlgorithmStringParser.hpp:15-16 AlgorithmTypes: an unordered_map from type names to declarations *)
Definition types : Type := list (str * list dalg).
Fixpoint ty_find (T : types) (ty : str) : option (list dalg) :=
  match T with [] => None | (t, l) :: r => if list_eqb t ty then Some l else ty_find r ty end.
Fixpoint ty_set (T : types) (ty : str) (l : list dalg) : types :=
  match T with
  | [] => [(ty, l)]
  | (t, x) :: r => if list_eqb t ty then (t, l) :: r else (t, x) :: ty_set r ty l
  end.

(** AlgorithmPattern.hpp:17-66 Algorithm, Arg *)
Inductive pat := Pat (name : str) (args : list (str * pat)).
Definition pat_name (p : pat) : str := let 'Pat n _ := p in n.
(** OptionValue.hpp:34-62, :66-88 AlgorithmValue, OptionValue; the std::map of the arguments as an association list *)
Inductive ov := OStr (s : str) | OAlg (name : str) (opts : list (str * ov)) (sel : pat).
(** r_dynamic_args[key] = x *)
Fixpoint map_set {A} (m : list (str * A)) (k : str) (x : A) : list (str * A) :=
  match m with
  | [] => [(k, x)]
  | (k', y) :: r => if list_eqb k' k then (k', x) :: r else (k', y) :: map_set r k x
  end.

(** ASTDef.hpp:63-65 is_empty; :21-23 Value() *)
Definition is_empty (v : value) : bool := match v with VStr [] => true | VInv [] _ => true | _ => false end.
Definition no_value : value := VStr [].
Definition keyword (a : arg) : str := match fst a with Some k => k | None => [] end.

(** AlgorithmStringParser.hpp:117-123: the last candidate of that name *)
Fixpoint find_alg (l : list dalg) (n : str) (found : option dalg) : option dalg :=
  match l with [] => found | d :: r => find_alg r n (if list_eqb (dn_name d) n then Some d else found) end.
(** AlgorithmStringParser.hpp:138-172 step 1: the argument name of each given argument; [i] counts positional ones *)
Fixpoint bind_names (sig : list darg) (args : list arg) (positional_ok : bool) (i : nat) : option (list str) :=
  match args with
  | [] => Some []
  | (kw, _) :: r =>
      do x <- match kw with
              | None => if positional_ok then do a <- nth_error sig i; Some (da_name a, positional_ok, S i) else None
              | Some k => Some (k, false, i)
              end;
      let '(name, ok, i') := x in
      if existsb (fun a => list_eqb name (da_name a)) sig                         (* check_argument_defined *)
      then do ns <- bind_names sig r ok i'; Some (name :: ns) else None
  end.
(** AlgorithmStringParser.hpp:183-188: the last position of that name *)
Fixpoint last_index (names : list str) (x : str) (i : nat) (found : option nat) : option nat :=
  match names with [] => found | n :: r => last_index r x (S i) (if list_eqb n x then Some i else found) end.

(** AlgorithmStringParser.hpp:177-255 step 2, the loop over the signature.  [ev] is the recursive call.  [fixed] are the
    remaining fixed static arguments, if there are any: they are reversed (:110-111) and then taken from the back, so
    they are taken in order.  Collects the static and the dynamic results. *)
Fixpoint eval_args (ev : value -> str -> value -> eres ov) (pattern : bool) (args : list arg) (names : list str)
    (sig : list darg) (fixed : option (list arg)) (rs : list (str * pat)) (rd : list (str * ov))
    : eres (option (list arg) * list (str * pat) * list (str * ov)) :=
  match sig with
  | [] => EOk (fixed, rs, rd)
  | a :: sig' =>
      if pattern && negb (da_static a) then eval_args ev pattern args names sig' fixed rs rd else
      let found := last_index names (da_name a) 0 None in
      edo arg_value <- match found with
                       | Some j => lift (do b <- nth_error args j; Some (snd b))
                       | None => EOk (match da_default a with Some d => d | None => no_value end)
                       end;
      edo (fixed', arg_value, arg_fixed) <-
        match fixed with
        | Some fl =>
            if da_static a then
              match fl with
              | [] => EErr
              | c :: fl' => if list_eqb (keyword c) (da_name a)
                            then EOk (Some fl', match found with None => snd c | Some _ => arg_value end, snd c)
                            else EErr
              end
            else EOk (fixed, arg_value, no_value)
        | None => EOk (None, arg_value, no_value)
        end;
      if is_empty arg_value then EErr else                                         (* check_arg_has_value *)
      edo o <- ev arg_value (da_type a) arg_fixed;
      edo rs' <- (if da_static a then
                    match o with
                    | OStr _ => EErr                                               (* CHECK in as_algorithm *)
                    | OAlg _ _ p => EOk (match pat_name p with [] => rs | _ => rs ++ [(da_name a, p)] end)
                    end
                  else EOk rs);
      eval_args ev pattern args names sig' fixed' rs' (map_set rd (da_name a) o)
  end.

(** AlgorithmStringParser.hpp:94-277 eval *)
Fixpoint eval (fuel : nat) (T : types) (pattern : bool) (v : value) (ty : str) (fixed : value) : eres ov :=
  match fuel with
  | O => EFuel
  | S f =>
      if list_eqb ty str_string then match v with VStr s => EOk (OStr s) | VInv _ _ => EErr end else
      edo fx <- (if is_empty fixed then EOk None else
                 match fixed, v with
                 | VInv fn fargs, VInv n _ => if list_eqb fn n then EOk (Some fargs) else EErr
                 | _, _ => EErr
                 end);
      match ty_find T ty, v with
      | Some candidates, VInv n args =>
          edo d <- lift (find_alg candidates n None);
          edo names <- lift (bind_names (dn_args d) args true 0);
          edo (fx', rs, rd) <- eval_args (fun v ty fixed => eval f T pattern v ty fixed) pattern args names (dn_args d) fx [] [];
          match fx' with
          | Some (_ :: _) => EErr
          | _ => EOk (OAlg (dn_name d) rd (Pat (dn_name d) rs))
          end
      | _, _ => EErr
      end
  end.

(** *** Declarations: Meta.hpp:33-48 *)
Inductive meta := Meta (ty name doc : str) (opts : list darg) (sargs : list arg) (subs : list meta).
Definition m_type (m : meta) : str := let 'Meta t _ _ _ _ _ := m in t.
Definition m_name (m : meta) : str := let 'Meta _ n _ _ _ _ := m in n.
Definition m_opts (m : meta) : list darg := let 'Meta _ _ _ o _ _ := m in o.
Definition m_sargs (m : meta) : list arg := let 'Meta _ _ _ _ s _ := m in s.
Definition m_subs (m : meta) : list meta := let 'Meta _ _ _ _ _ s := m in s.
(** Meta.hpp:68-77 the constructor *)
Definition meta_new (ty name doc : str) : meta := Meta ty name doc [] [] [].
(** Meta.hpp:49-55 check_arg *)
Definition arg_free (m : meta) (x : str) : bool := negb (existsb (fun a => list_eqb (da_name a) x) (m_opts m)).
(** Meta.hpp:245-247 build_static_args_ast_value *)
Definition static_value (m : meta) : value := VInv (m_name m) (m_sargs m).
(** Meta.hpp:233-243 build_ast_value_for_default: options without default contribute the empty value *)
Definition default_value (m : meta) : value :=
  VInv (m_name m) (map (fun a => (Some (da_name a), match da_default a with Some d => d | None => no_value end)) (m_opts m)).
Definition add_opt (m : meta) (a : darg) (sa : list arg) (sub : list meta) : option meta :=
  if arg_free m (da_name a)
  then let 'Meta t n d o s u := m in Some (Meta t n d (o ++ [a]) (s ++ sa) (u ++ sub)) else None.
(** Meta.hpp:95-113 templated<T> *)
Definition opt_templated (m : meta) (x : str) (t : meta) : option meta :=
  add_opt m (DArg x true (m_type t) None) [(Some x, static_value t)] [t].
(** Meta.hpp:127-145 templated<T, D>: the option has the type of D, and D as default *)
Definition opt_templated_default (m : meta) (x : str) (t d : meta) : option meta :=
  add_opt m (DArg x true (m_type d) (Some (default_value d))) [(Some x, static_value t)] [t; d].
(** Meta.hpp:151-158, :163-198 dynamic, and the variants that convert the default to a string *)
Definition opt_dynamic (m : meta) (x : str) (default : option str) : option meta :=
  add_opt m (DArg x false str_string (do d <- default; Some (VStr d))) [] [].
(** Meta.hpp:202-209 dynamic_compressor *)
Definition opt_compressor (m : meta) (x : str) : option meta := add_opt m (DArg x false str_compressor None) [] [].

(** the metas that T::meta() functions can build with these *)
Inductive built : meta -> Prop :=
| B_new : forall ty n d, built (meta_new ty n d)
| B_templated : forall m x t m', built m -> built t -> opt_templated m x t = Some m' -> built m'
| B_default : forall m x t d m', built m -> built t -> built d -> opt_templated_default m x t d = Some m' -> built m'
| B_dynamic : forall m x d m', built m -> opt_dynamic m x d = Some m' -> built m'
| B_compressor : forall m x m', built m -> opt_compressor m x = Some m' -> built m'.

(** AlgorithmDecl.hpp:151-165 operator== *)
Fixpoint value_eqb (v w : value) : bool :=
  match v, w with
  | VStr s, VStr t => list_eqb s t
  | VInv n a, VInv m b =>
      list_eqb n m &&
      (fix go (a b : list arg) : bool :=
         match a, b with
         | [], [] => true
         | (k, x) :: a, (l, y) :: b =>
             match k, l with Some k, Some l => list_eqb k l | None, None => true | _, _ => false end && value_eqb x y && go a b
         | _, _ => false
         end) a b
  | _, _ => false
  end.
Definition darg_eqb (a b : darg) : bool :=
  list_eqb (da_name a) (da_name b) && Bool.eqb (da_static a) (da_static b) && list_eqb (da_type a) (da_type b) &&
  match da_default a, da_default b with Some x, Some y => value_eqb x y | None, None => true | _, _ => false end.
Fixpoint dargs_eqb (a b : list darg) : bool :=
  match a, b with [], [] => true | x :: a, y :: b => darg_eqb x y && dargs_eqb a b | _, _ => false end.
Definition dalg_eqb (a b : dalg) : bool :=
  list_eqb (dn_name a) (dn_name b) && dargs_eqb (dn_args a) (dn_args b) && list_eqb (dn_doc a) (dn_doc b).

(** Meta.hpp:301-327: the loop over the already known algorithms of the type; None: the exception, Some true: found *)
Fixpoint known_alg (l : list dalg) (d : dalg) : option bool :=
  match l with
  | [] => Some false
  | x :: r => if list_eqb (dn_name x) (dn_name d) then (if dalg_eqb x d then Some true else None) else known_alg r d
  end.
(** Meta.hpp:292-341 gather_types *)
Fixpoint gather (T : types) (m : meta) : option types :=
  match m with
  | Meta ty n doc opts _ subs =>
      let l := match ty_find T ty with Some l => l | None => [] end in
      let d := DAlg n opts doc in
      do known <- known_alg l d;
      let T' := if known : bool then ty_set T ty l else ty_set T ty (l ++ [d]) in
      (fix go (T : types) (subs : list meta) : option types :=
         match subs with [] => Some T | s :: r => do T <- gather T s; go T r end) T' subs
  end.

(** *** AlgorithmPattern.hpp:118-143 operator==, operator< (std::vector compares lexicographically) *)
Fixpoint str_ltb (a b : str) : bool :=
  match a, b with
  | [], _ :: _ => true
  | x :: a, y :: b => (x <? y) || ((x =? y) && str_ltb a b)
  | _, [] => false
  end.
Fixpoint pat_eqb (p q : pat) : bool :=
  let 'Pat n a := p in let 'Pat m b := q in
  list_eqb n m &&
  (fix go (a b : list (str * pat)) : bool :=
     match a, b with
     | [], [] => true
     | (k, x) :: a, (l, y) :: b => list_eqb k l && pat_eqb x y && go a b
     | _, _ => false
     end) a b.
Definition pargs_eqb := fix go (a b : list (str * pat)) : bool :=
  match a, b with
  | [], [] => true
  | (k, x) :: a, (l, y) :: b => list_eqb k l && pat_eqb x y && go a b
  | _, _ => false
  end.
(** [pat_lt2 p q] is (p < q, q < p): lexicographical comparison asks both of each pair of elements *)
Fixpoint pat_lt2 (p q : pat) : bool * bool :=
  let 'Pat n a := p in let 'Pat m b := q in
  if negb (list_eqb n m) then (str_ltb n m, str_ltb m n) else
  if negb (pargs_eqb a b) then
    (fix go (a b : list (str * pat)) : bool * bool :=
       match a, b with
       | [], [] => (false, false)
       | [], _ :: _ => (true, false)
       | _ :: _, [] => (false, true)
       | (k, x) :: a, (l, y) :: b =>
           let '(lt, gt) := if negb (list_eqb k l) then (str_ltb k l, str_ltb l k)
                            else if negb (pat_eqb x y) then pat_lt2 x y else (false, false) in
           if lt then (true, false) else if gt then (false, true) else go a b
       end) a b
  else (false, false).
Definition pat_ltb (p q : pat) : bool := fst (pat_lt2 p q).

(** AlgorithmPattern.hpp:77-117 to_string *)
Fixpoint print_pat (p : pat) : str :=
  match p with
  | Pat n [] => n
  | Pat n args => n ++ 40 :: sep [44; 32] (map (fun '(k, q) => k ++ [32; 61; 32] ++ print_pat q) args) ++ [41]
  end.

(** *** The registry: pre_header/Registry.hpp:41-44 RegistryData; implementations are named by numbers, the std::map from
    selections to implementations is an association list looked up with operator== (see [pattern_order]) *)
Record registry := Reg { r_root : str; r_types : types; r_impl : list (pat * N) }.
Fixpoint impl_find (l : list (pat * N)) (p : pat) : option N :=
  match l with [] => None | (q, i) :: r => if pat_eqb q p then Some i else impl_find r p end.
Definition sel_of (o : ov) : eres pat := match o with OAlg _ _ p => EOk p | OStr _ => EErr end.
(** AlgorithmStringParser.hpp:289-297 pattern_eval; :279-288 cl_eval *)
Definition pattern_eval (fuel : nat) (T : types) (v : value) (ty : str) : eres pat :=
  edo o <- eval fuel T true v ty no_value; sel_of o.
Definition cl_eval (fuel : nat) (T : types) (v : value) (ty : str) (fixed : value) : eres ov := eval fuel T false v ty fixed.
(** Registry.hpp:11-27 register_algorithm *)
Definition register (fuel : nat) (R : registry) (m : meta) (impl : N) : eres registry :=
  edo T <- lift (gather (r_types R) m);
  edo p <- pattern_eval fuel T (static_value m) (r_root R);
  match impl_find (r_impl R) p with
  | Some _ => EErr                                                                  (* registered twice *)
  | None => EOk (Reg (r_root R) T (r_impl R ++ [(p, impl)]))
  end.
(** Registry.hpp:202-217 select_algorithm *)
Definition select_algorithm (R : registry) (o : ov) : eres N :=
  edo p <- sel_of o; lift (impl_find (r_impl R) p).
(** Registry.hpp:219-239 parse_algorithm_id, select: the option values, and the implementation chosen for them *)
Definition parse_algorithm_id (pf fuel : nat) (R : registry) (text : str) : eres ov :=
  match parse_text pf text with
  | POk v _ => edo o <- cl_eval fuel (r_types R) v (r_root R) no_value; edo p <- sel_of o; EOk o
  | PFuel => EFuel
  | _ => EErr
  end.
Definition select (pf fuel : nat) (R : registry) (text : str) : eres (ov * N) :=
  edo o <- parse_algorithm_id pf fuel R text; edo i <- select_algorithm R o; EOk (o, i).
(** CreateAlgorithm.hpp:29-58 Builder::env: the options are put between the parentheses of the algorithm's name *)
Definition builder_env (pf fuel : nat) (T : types) (m : meta) (options : str) : eres ov :=
  edo T <- lift (gather T m);
  match parse_text pf (m_name m ++ 40 :: options ++ [41]) with
  | POk v _ => edo o <- cl_eval fuel T v (m_type m) (static_value m); edo p <- sel_of o; EOk o
  | PFuel => EFuel
  | _ => EErr
  end.
