(** parser/src/internal/parsers_impl/cache_parsers_impl.rs: the cached parser as a state machine. *)
From Verif Require Import Base Core Comb.
Set Implicit Arguments.

(** Key: (address of the ParseState, last_offset().unwrap_or(0), address of the captured method); 19-25.  The third
    component is constant for one parser object and left out.  The address is chosen by the run time, so every call
    carries it as an oracle value. *)
Definition ckey := (nat * nat)%type.
Definition ckey_eqb (a b : ckey) : bool := (fst a =? fst b) && (snd a =? snd b).

(** The hash map (18): latest insertion first. *)
Definition cstore (I A : Type) := list (ckey * outcome I A).
(** FnvHashMap::entry: look a key up. *)
Fixpoint cfind {I A} (m : cstore I A) (k : ckey) : option (outcome I A) :=
  match m with
  | [] => None
  | (k', o) :: m' => if ckey_eqb k k' then Some o else cfind m' k
  end.

(** One call: address of the state, and the two fields of the state. *)
Record ccall (I : Type) := mk_call { cc_addr : nat; cc_input : list I; cc_off : nat }.
(** 19-25. *)
Definition key_of {I} (c : ccall I) : ckey := (cc_addr c, last_offset_or0 (cc_off c)).

(** 21-36 for a method that does not run the cached parser itself.  A panicking or non-returning method leaves the map
    unchanged (the closure of or_insert_with does not return). *)
Definition cache_step {I A} (p : parser I A) (m : cstore I A) (c : ccall I) : cstore I A * outcome I A :=
  match cfind m (key_of c) with
  | Some o => (m, o)
  | None =>
      let o := p (cc_input c) (cc_off c) in
      match o with
      | Panic | Diverge => (m, o)
      | _ => ((key_of c, o) :: m, o)
      end
  end.

(** A history of runs of one cached parser object: the list of answers. *)
Fixpoint cache_runs {I A} (p : parser I A) (m : cstore I A) (cs : list (ccall I)) : list (outcome I A) :=
  match cs with
  | [] => []
  | c :: cs' => let '(m', o) := cache_step p m c in o :: cache_runs p m' cs'
  end.

(** 21-36 for a method that refers to the cached parser itself: [method self] where [self] is a call of the cached
    parser.  The RefCell is mutably borrowed (29) for the whole duration of the method, so every nested call panics in
    borrow_mut; a hit does not run the method. *)
Definition cache_step_rec {I A} (method : parser I A -> parser I A) (m : cstore I A) (c : ccall I)
  : cstore I A * outcome I A :=
  cache_step (method (fun _ _ => Panic)) m c.
