(** Models of tudocomp_driver/ChainCompressor.hpp and of the compress/decompress part of
    src/tudocomp_driver/tudocomp_driver.cpp:190-345. *)
From Verif Require Import Base Escape InputObj.
Local Open Scope nat_scope.

(** A compressor: the restrictions it declares (AlgorithmValue::textds_flags), what compress()
    writes given the bytes its Input shows, and what decompress() writes given the bytes of its Input.
    Simplification: a run writes through one output stream; the statistics are left out. *)
Record compressor := mk_compressor { cp_restr : restr; cp_comp : list N -> option (list N);
                                     cp_dec : list N -> option (list N) }.

(** what a compressor sees of an Input that was not accessed before *)
Definition fresh_view (i : input) : option (list N) :=
  match i_src i with
  | SStream data => do (_, x) <- do_access data pool0 (AView 0 (i_from i) (i_to i) (i_restr i));
                    match x with RBytes b => Some b | _ => None end
  | _ => as_view i
  end.
(** ChainCompressor.hpp:69-82 and :88-101: the lambdas given to chain() *)
Definition run_compress (c : compressor) (i : input) : option (list N) :=
  do b <- fresh_view (if has_restrictions (cp_restr c) then in_restrict i (cp_restr c) else i); cp_comp c b.
Definition run_decompress (c : compressor) (i : input) (o : output) (contents : list N) : option (list N) :=
  do b <- fresh_view i; do x <- cp_dec c b;
  do (_, l) <- out_write (if has_restrictions (cp_restr c) then out_unrestrict o (cp_restr c) else o) contents x;
  Some l.
(** ChainCompressor.hpp:31-62 chain(): the first algorithm writes to a vector, the
    second reads it; [reverse] swaps the two *)
Definition chain_compress (first second : compressor) (i : input) : option (list N) :=
  do between <- run_compress first i; run_compress second (input_of (SView between)).
Definition chain_decompress (first second : compressor) (i : input) (o : output) (contents : list N) : option (list N) :=
  do between <- run_decompress second i (output_of OMem false) [];
  run_decompress first (input_of (SView between)) o contents.
(** The chain is itself a compressor, without restrictions of its own (ChainCompressor.hpp:16-21) *)
Definition chain_compressor (first second : compressor) : compressor :=
  mk_compressor (mk_restrictions [] false)
    (fun b => chain_compress first second (input_of (SView b)))
    (fun b => chain_decompress first second (input_of (SView b)) (output_of OMem false) []).

(** *** The driver *)
Definition percent : N := 37.
(** a registry: parse_algorithm_id and select_algorithm on an id string *)
Definition registry := list N -> option compressor.
(** tudocomp_driver.cpp:260-276.  [inp] is the input: a file, a generated text or standard input; [old] what the output file
    contained before; the output was opened with overwrite = true (:256). *)
Definition driver_compress (reg : registry) (raw : bool) (id : list N) (inp : source) (old : list N) : option (list N) :=
  do c <- reg id;
  let out := output_of OFile true in
  do (out1, cont1) <-
    (if raw then Some (out, old)
     else if existsb (N.eqb percent) id then None else out_write out old (id ++ [percent]));
  let i := input_of inp in
  do z <- run_compress c i;
  do (_, cont2) <- out_write out1 cont1 z;
  Some cont2.
(** tudocomp_driver.cpp:283-309: the header, with the number of bytes read before;
    [None]: "Input did not have an algorithm header!" *)
Fixpoint read_header (s : list N) (n : nat) (acc : list N) (err : bool) : option (list N) :=
  match s with
  | [] => if err then None else Some acc
  | c :: s' => if 1023 <? n then None
               else if (c =? percent)%N then Some acc
               else read_header s' (S n) (acc ++ [c]) true
  end.
(** the same for an input on standard input, all accesses going through the pool *)
Inductive where_from := FromMemory | FromFile | FromStdin.
(** tudocomp_driver.cpp:277-344, decompression.  [given]: the algorithm from the command line *)
Definition driver_decompress (reg : registry) (raw : bool) (given : option (list N)) (w : where_from)
    (data : list N) (old : list N) : option (list N) :=
  do (id, bytes) <-
    (if raw then
       match w with
       | FromMemory => do b <- as_view (input_of (SView data)); Some ([], b)
       | FromFile => do b <- as_view (input_of (SFile data)); Some ([], b)
       | FromStdin => do (_, x) <- do_access data pool0 (AView 0 0 None (mk_restrictions [] false));
                      match x with RBytes b => Some ([], b) | _ => None end
       end
     else
       match w with
       | FromMemory =>
           do s <- as_stream true (input_of (SView data)); do h <- read_header s 0 [] false;
           do b <- as_view (in_slice (input_of (SView data)) (length h + 1) None); Some (h, b)
       | FromFile =>
           do s <- as_stream true (input_of (SFile data)); do h <- read_header s 0 [] false;
           do b <- as_view (in_slice (input_of (SFile data)) (length h + 1) None); Some (h, b)
       | FromStdin =>
           do (st1, x) <- do_access data pool0 (AStream 0 0 None (mk_restrictions [] false));
           match x with
           | RBytes s =>
               do h <- read_header s 0 [] false;
               do (st2, _) <- do_access data st1 (AClose 0);
               do (_, y) <- do_access data st2 (AView 1 (length h + 1) None (mk_restrictions [] false));
               match y with RBytes b => Some (h, b) | _ => None end
           | _ => None
           end
       end);
  do id' <- match given with
            | Some g => Some g
            | None => if raw then None else Some id
            end;
  do c <- reg id';
  let out := output_of OFile true in
  let out1 := if has_restrictions (cp_restr c) then out_unrestrict out (cp_restr c) else out in
  do x <- cp_dec c bytes;
  do (_, cont) <- out_write out1 old x;
  Some cont.
