(** parser/src/core: CommittedStatus, ParseError, ParseState, ParseResult. *)
From Verif Require Import Base.
Set Implicit Arguments.

(** core/committed_status.rs 4-7: [true] is Committed, [false] is Uncommitted
    ([From<bool>], 9-17, is then the identity). *)
Definition committed_status := bool.
Notation Committed := true (only parsing).
Notation Uncommitted := false (only parsing).

(** core/committed_status.rs 36-42. *)
Definition cs_or (self other : committed_status) : committed_status :=
  match self, other with
  | Committed, _ => Committed
  | _, Committed => Committed
  | _, _ => Uncommitted
  end.

(** core/parse_error.rs 6-35.  Messages are constant tags (the text produced by format! is not modelled). *)
Inductive perror (I : Type) : Type :=
| Mismatch (input : list I) (offset len : nat) (message : string)
| Conversion (input : list I) (offset len : nat) (message : string)
| Incomplete
| Expect (offset : nat) (inner : perror I) (message : string)
| Custom (offset : nat) (inner : option (perror I)) (message : string).
Arguments Incomplete {I}.

(** core/parse_error.rs 113-118. *)
Definition is_custom {I} (e : perror I) : bool := match e with Custom _ _ _ => true | _ => false end.
(** core/parse_error.rs 106-111. *)
Definition is_expect {I} (e : perror I) : bool := match e with Expect _ _ _ => true | _ => false end.
(** core/parse_error.rs 120-125. *)
Definition is_mismatch {I} (e : perror I) : bool := match e with Mismatch _ _ _ _ => true | _ => false end.
(** core/parse_error.rs 127-132. *)
Definition is_conversion {I} (e : perror I) : bool := match e with Conversion _ _ _ _ => true | _ => false end.
(** core/parse_error.rs 134-139. *)
Definition is_in_complete {I} (e : perror I) : bool := match e with Incomplete => true | _ => false end.

(** core/parse_error.rs 89-104.  Outer [None] = the slice expression panics; inner option = returned Option. *)
Fixpoint error_input {I} (e : perror I) : option (option (list I)) :=
  match e with
  | Incomplete => Some None
  | Mismatch input offset len _ =>
      match slice input offset (offset + len) with Some s => Some (Some s) | None => None end
  | Conversion input offset len _ =>
      match slice input offset (offset + len) with Some s => Some (Some s) | None => None end
  | Expect _ inner _ => error_input inner
  | Custom _ (Some inner) _ => error_input inner
  | Custom _ None _ => Some None
  end.

(** core/parse_result.rs 6-21, plus two values for a run that does not return:
    [Panic] (unwinding panic) and [Diverge] (loop or recursion that exhausted the fuel of the model). *)
Inductive outcome (I A : Type) : Type :=
| Success (value : A) (len : nat)
| Failure (error : perror I) (committed : committed_status)
| Panic
| Diverge.
Arguments Success {I A}. Arguments Failure {I A}. Arguments Panic {I A}. Arguments Diverge {I A}.

(** core/parser.rs 7-30: [Rc<dyn Fn(&ParseState<I>) -> ParseResult<I, A>>].
    The two arguments are the fields of ParseState (core/parse_state.rs 3-6). *)
Definition parser (I A : Type) : Type := list I -> nat -> outcome I A.

(** core/parse_state.rs 15-21 followed by the unwrap_or(0) used by every caller. *)
Definition last_offset_or0 (off : nat) : nat := if 0 <? off then off - 1 else 0.

(** core/parse_state.rs 34-36. *)
Definition ps_input {I} (inp : list I) (off : nat) : option (list I) := slice_from inp off.

(** core/parse_state.rs 39-41. *)
Definition slice_with_len {I} (inp : list I) (off n : nat) : option (list I) := slice inp off (off + n).

(** core/parse_result.rs 46-48. *)
Definition failed_with_uncommitted {I A} (e : perror I) : outcome I A := Failure e Uncommitted.

(** core/parse_result.rs 55-60 (result of a run that returns). *)
Definition to_result {I A} (o : outcome I A) : option (A + perror I) :=
  match o with
  | Success v _ => Some (inl v)
  | Failure e _ => Some (inr e)
  | Panic | Diverge => None
  end.

(** core/parse_result.rs 71-76. *)
Definition success {I A} (o : outcome I A) : option A :=
  match o with Success v _ => Some v | _ => None end.

(** core/parse_result.rs 106-117. *)
Definition with_uncommitted {I A} (o : outcome I A) : outcome I A :=
  match o with
  | Failure e Committed => Failure e Uncommitted
  | o => o
  end.

(** core/parse_result.rs 120-131. *)
Definition add_commit {I A} (b : bool) (o : outcome I A) : outcome I A :=
  match o with
  | Failure e c => Failure e (cs_or c b)
  | o => o
  end.

(** core/parse_result.rs 177-182. *)
Definition advance_success {I A} (n : nat) (o : outcome I A) : outcome I A :=
  match o with
  | Success v l => Success v (l + n)
  | o => o
  end.

(** core/parse_result.rs 133-146. *)
Definition pr_flat_map {I A B} (f : A -> nat -> outcome I B) (o : outcome I A) : outcome I B :=
  match o with
  | Success v l => f v l
  | Failure e c => Failure e c
  | Panic => Panic
  | Diverge => Diverge
  end.

(** core/parse_result.rs 148-155. *)
Definition pr_map {I A B} (f : A -> nat -> B * nat) (o : outcome I A) : outcome I B :=
  pr_flat_map (fun v l => let '(v', l') := f v l in Success v' l') o.

(** core/parse_result.rs 157-163. *)
Definition pr_map_err {I A} (f : perror I -> perror I) (o : outcome I A) : outcome I A :=
  match o with
  | Failure e c => Failure (f e) c
  | o => o
  end.

(** internal/parser_impl/parser_runner_impl.rs: [run] on ParseState::new(input, 0). *)
Definition parse {I A} (p : parser I A) (input : list I) : outcome I A := p input 0.
