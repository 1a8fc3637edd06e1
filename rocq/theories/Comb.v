(** parser/src/internal/parsers_impl*.rs and parser/src/extension/parsers/*.rs, function by function.
    All paths below are relative to parser/src.

    Conventions: a panic or divergence of a sub-parser is the result of the whole run; [match] arms for
    [Panic]/[Diverge] are the only ones with no counterpart in the source. *)
From Verif Require Import Base Core.
Set Implicit Arguments.
Local Open Scope string_scope.
Local Open Scope nat_scope.
Local Open Scope list_scope.

Section Comb.
Context {I : Type}.

(** ** internal/parsers_impl.rs *)

(** internal/parsers_impl.rs 36-40. *)
Definition p_successful {A} (value : A) : parser I A := fun _ _ => Success value 0.

(** internal/parsers_impl.rs 42-47 (the thunk is its value: closures are pure). *)
Definition p_successful_lazy {A} (value : unit -> A) : parser I A := fun _ _ => Success (value tt) 0.

(** core/parsers.rs 18-20; internal/parsers_impl/primitive_parsers_impl.rs 25-27 (empty);
    extension/parsers/primitive_parsers.rs 6-8 (begin). *)
Definition p_unit : parser I unit := p_successful tt.
Definition p_empty : parser I unit := p_unit.
Definition p_begin : parser I unit := p_empty.

(** internal/parsers_impl.rs 49-54. *)
Definition p_failed {A} (e : perror I) (c : committed_status) : parser I A := fun _ _ => Failure e c.

(** internal/parsers_impl.rs 56-65. *)
Definition p_failed_lazy {A} (f : unit -> perror I * committed_status) : parser I A :=
  fun _ _ => let '(e, c) := f tt in Failure e c.

(** internal/parsers_impl.rs 67-88. *)
Definition p_filter {A} (p : parser I A) (f : A -> bool) : parser I A := fun inp off =>
  match p inp off with
  | Success v n =>
      if f v then Success v n
      else Failure (Custom (off + n) None "filter: predicate returned false") Uncommitted
  | Failure e c => Failure e c
  | Panic => Panic
  | Diverge => Diverge
  end.

(** core/parser_filter.rs 14-21. *)
Definition p_filter_not {A} (p : parser I A) (f : A -> bool) : parser I A :=
  p_filter p (fun e => negb (f e)).

(** internal/parsers_impl.rs 90-106. *)
Definition p_flat_map {A B} (p : parser I A) (f : A -> parser I B) : parser I B := fun inp off =>
  match p inp off with
  | Success v n => advance_success n (add_commit (negb (n =? 0)) (f v inp (off + n)))
  | Failure e c => Failure e c
  | Panic => Panic
  | Diverge => Diverge
  end.

(** internal/parsers_impl.rs 108-120. *)
Definition p_map {A B} (p : parser I A) (f : A -> B) : parser I B := fun inp off =>
  match p inp off with
  | Success v n => Success (f v) n
  | Failure e c => Failure e c
  | Panic => Panic
  | Diverge => Diverge
  end.

(** internal/parsers_impl.rs 108-120 with a closure that may panic (None). *)
Definition p_map_panic {A B} (p : parser I A) (f : A -> option B) : parser I B := fun inp off =>
  match p inp off with
  | Success v n => match f v with Some b => Success b n | None => Panic end
  | Failure e c => Failure e c
  | Panic => Panic
  | Diverge => Diverge
  end.

(** core/parsers.rs 113-129: the second public implementation of filter (trait impl for ParserParsers). *)
Definition pp_filter {A} (p : parser I A) (f : A -> bool) : parser I A :=
  p_flat_map p (fun a =>
    if f a then p_successful a
    else p_failed (Custom 0 None "Filter predicate failed") Uncommitted).

(** core/parsers.rs 71-80. *)
Definition pp_parse {A} (p : parser I A) (input : list I) : option (A + perror I) :=
  match parse p input with
  | Success v _ => Some (inl v)
  | Failure _ _ => Some (inr (Custom 0 None "Parse failed"))
  | Panic | Diverge => None
  end.

(** ** internal/parsers_impl/operator_parsers_impl.rs *)

(** 10-17. *)
Definition p_exists {A} (p : parser I A) : parser I bool := fun inp off =>
  match p inp off with
  | Success _ _ => Success true 0
  | Failure _ _ => Success false 0
  | Panic => Panic
  | Diverge => Diverge
  end.

(** 20-36. *)
Definition p_not {A} (p : parser I A) : parser I unit := fun inp off =>
  match p inp off with
  | Success _ _ =>
      match ps_input inp (off + 0) with
      | Some rest => failed_with_uncommitted (Mismatch rest (last_offset_or0 (off + 0)) 0 "not predicate failed")
      | None => Panic
      end
  | Failure _ _ => Success tt 0
  | Panic => Panic
  | Diverge => Diverge
  end.

(** 39-51. *)
Definition p_or {A} (p1 p2 : parser I A) : parser I A := fun inp off =>
  match p1 inp off with
  | Failure e c => if negb c then p2 inp off else Failure e c
  | o => o
  end.

(** 54-76. *)
Definition p_and {A B} (p1 : parser I A) (p2 : parser I B) : parser I (A * B) := fun inp off =>
  match p1 inp off with
  | Success a n1 =>
      match p2 inp (off + n1) with
      | Success b n2 => Success (a, b) (n1 + n2)
      | Failure e c => Failure e c
      | Panic => Panic
      | Diverge => Diverge
      end
  | Failure e c => Failure e c
  | Panic => Panic
  | Diverge => Diverge
  end.

(** 79-83. *)
Definition p_attempt {A} (p : parser I A) : parser I A := fun inp off => with_uncommitted (p inp off).

(** 117-153.  The recursion is not structural: fuel, [Diverge] when it runs out. *)
Fixpoint rest_left1_fuel {A} (fuel : nat) (p : parser I A) (op : parser I (A -> A -> A)) (x : A)
  : parser I A := fun inp off =>
  match fuel with
  | 0 => Diverge
  | S fuel' =>
      p_or
        (fun inp off =>
           match op inp off with
           | Success f n1 =>
               advance_success n1 (add_commit (negb (n1 =? 0))
                 (match p inp (off + n1) with
                  | Success y n2 =>
                      advance_success n2 (rest_left1_fuel fuel' p op (f x y) inp (off + n1 + n2))
                  | Failure e c => Failure e c
                  | Panic => Panic
                  | Diverge => Diverge
                  end))
           | Failure e c => Failure e c
           | Panic => Panic
           | Diverge => Diverge
           end)
        (p_successful x) inp off
  end.

(** Fuel of [p_rest_left1]: one unit per remaining element, plus two (adequate for parsers that do not
    overrun: [rest_left1_fuel_adequate]). *)
Definition chain_fuel (inp : list I) (off : nat) : nat := S (S (length inp - off)).
Definition p_rest_left1 {A} (p : parser I A) (op : parser I (A -> A -> A)) (x : A) : parser I A :=
  fun inp off => rest_left1_fuel (chain_fuel inp off) p op x inp off.

(** 94-99. *)
Definition p_chain_left1 {A} (p : parser I A) (op : parser I (A -> A -> A)) : parser I A :=
  p_flat_map p (fun x => p_rest_left1 p op x).

(** 86-91 (the source really calls rest_left1); internal/parser_impl/operator_parser_impl.rs scan_right1. *)
Definition p_chain_right1 {A} (p : parser I A) (op : parser I (A -> A -> A)) : parser I A :=
  p_flat_map p (fun x => p_rest_left1 p op x).
Definition p_scan_right1 {A} (p : parser I A) (op : parser I (A -> A -> A)) : parser I A :=
  p_chain_right1 p op.

(** 102-114. *)
Definition p_rest_right1 {A} (p : parser I A) (op : parser I (A -> A -> A)) (x : A) : parser I A :=
  p_or (p_flat_map op (fun f => p_map p (fun y => f x y))) (p_successful x).

(** extension/parsers/operator_parsers.rs 14-18. *)
Definition p_opt {A} (p : parser I A) : parser I (option A) :=
  p_or (p_map (p_attempt p) (@Some A)) (p_successful None).

(** extension/parsers/operator_parsers.rs 38-43. *)
Definition p_chain_right0 {A} (p : parser I A) (op : parser I (A -> A -> A)) (x : A) : parser I A :=
  p_or (p_chain_right1 p op) (p_successful x).

(** extension/parsers/operator_parsers.rs 45-50. *)
Definition p_chain_left0 {A} (p : parser I A) (op : parser I (A -> A -> A)) (x : A) : parser I A :=
  p_or (p_chain_left1 p op) (p_successful x).

(** ** internal/parsers_impl/repeat_parsers_impl.rs, utils/range.rs *)

(** utils/range.rs 3-7. *)
Inductive bound := BIncluded (n : nat) | BExcluded (n : nat) | BUnbounded.
(** utils/range.rs 9-12: the values of start() and end(). *)
Record range := mk_range { rg_start : bound; rg_end : bound }.
(** utils/range.rs 15-88: .. / a..b / a..=b / a.. / ..b / ..=b / n. *)
Definition rg_full := mk_range BUnbounded BUnbounded.
Definition rg_ex (a b : nat) := mk_range (BIncluded a) (BExcluded b).
Definition rg_in (a b : nat) := mk_range (BIncluded a) (BIncluded b).
Definition rg_from (a : nat) := mk_range (BIncluded a) BUnbounded.
Definition rg_to (b : nat) := mk_range BUnbounded (BExcluded b).
Definition rg_to_in (b : nat) := mk_range BUnbounded (BIncluded b).
Definition rg_exact (n : nat) := mk_range (BIncluded n) (BIncluded n).

(** repeat_parsers_impl.rs 82-94: must the loop stop at [count] collected items? *)
Definition rep_stop (rend : bound) (count : nat) : bool :=
  match rend with
  | BIncluded max => max <=? count
  | BExcluded max => max <=? count + 1
  | BUnbounded => false
  end.

(** Result of the loop at internal/parsers_impl/repeat_parsers_impl.rs 70-112: items and total length, or a run that does not return. *)
Inductive rep_result (A : Type) :=
| RDone (items : list A) (all_length : nat)
| RPanic
| RDiverge.
Arguments RDone {A}. Arguments RPanic {A}. Arguments RDiverge {A}.

(** 81-111: [cur] is current_parse_state.offset, [items] is kept in reverse. *)
Fixpoint rep_loop {A B} (fuel : nat) (p : parser I A) (sep : option (parser I B)) (rend : bound)
  (inp : list I) (cur : nat) (items : list A) (all_length : nat) : rep_result A :=
  match fuel with
  | 0 => RDiverge
  | S fuel' =>
      if rep_stop rend (length items) then RDone (rev items) all_length
      else
        let elem_step := fun cur all_length =>
          match p inp cur with
          | Success value n => rep_loop fuel' p sep rend inp (cur + n) (value :: items) (all_length + n)
          | Failure _ _ => RDone (rev items) all_length
          | Panic => RPanic
          | Diverge => RDiverge
          end in
        match sep with
        | Some s =>
            match s inp cur with
            | Success _ n => elem_step (cur + n) (all_length + n)
            | Failure _ _ => RDone (rev items) all_length
            | Panic => RPanic
            | Diverge => RDiverge
            end
        | None => elem_step cur all_length
        end
  end.

Definition bound_count (b : bound) : nat :=
  match b with BIncluded n => n | BExcluded n => n | BUnbounded => 0 end.

(** Fuel of [p_repeat_sep]: enough for one element per iteration or for the maximal count
    (adequate for parsers that do not overrun: [rep_loop_fuel_adequate]). *)
Definition rep_fuel (rend : bound) (inp : list I) (off : nat) : nat :=
  2 + (length inp - off) + bound_count rend.

(** 114-130. *)
Definition rep_finish {A} (rstart : bound) (inp : list I) (off : nat) (r : rep_result A)
  : outcome I (list A) :=
  match r with
  | RPanic => Panic
  | RDiverge => Diverge
  | RDone items all_length =>
      match rstart with
      | BIncluded min =>
          if length items <? min then
            match ps_input inp (off + all_length) with
            | Some rest =>
                failed_with_uncommitted
                  (Mismatch rest (last_offset_or0 (off + all_length)) all_length "expect repeat at least")
            | None => Panic
            end
          else Success items all_length
      | _ => Success items all_length
      end
  end.

(** 60-132 with an explicit fuel. *)
Definition repeat_sep_fuel {A B} (fuel : nat) (p : parser I A) (r : range) (sep : option (parser I B))
  : parser I (list A) := fun inp off =>
  rep_finish (rg_start r) inp off
    (match p inp off with
     | Success value n => rep_loop fuel p sep (rg_end r) inp (off + n) [value] n
     | Failure _ _ => RDone [] 0
     | Panic => RPanic
     | Diverge => RDiverge
     end).

(** 60-132. *)
Definition p_repeat_sep {A B} (p : parser I A) (r : range) (sep : option (parser I B))
  : parser I (list A) := fun inp off =>
  repeat_sep_fuel (rep_fuel (rg_end r) inp off) p r sep inp off.

(** 9-15. *)
Definition p_repeat {A} (p : parser I A) (r : range) : parser I (list A) :=
  p_repeat_sep p r (None : option (parser I unit)).
(** 18-23. *)
Definition p_many0 {A} (p : parser I A) : parser I (list A) :=
  p_repeat_sep p (rg_from 0) (None : option (parser I unit)).
(** 26-31. *)
Definition p_many1 {A} (p : parser I A) : parser I (list A) :=
  p_repeat_sep p (rg_from 1) (None : option (parser I unit)).
(** 34-39; internal/parser_impl/repeat_parser_impl.rs 39-44. *)
Definition p_count {A} (p : parser I A) (n : nat) : parser I (list A) :=
  p_repeat_sep p (rg_in n n) (None : option (parser I unit)).
(** 42-48. *)
Definition p_many0_sep {A B} (p : parser I A) (sep : parser I B) : parser I (list A) :=
  p_repeat_sep p (rg_from 0) (Some sep).
(** 51-57. *)
Definition p_many1_sep {A B} (p : parser I A) (sep : parser I B) : parser I (list A) :=
  p_repeat_sep p (rg_from 1) (Some sep).
(** internal/parser_impl/repeat_parser_impl.rs 32-37. *)
Definition p_many_n_m {A} (p : parser I A) (n m : nat) : parser I (list A) := p_repeat p (rg_in n m).
(** internal/parser_impl/repeat_parser_impl.rs 75-86. *)
Definition p_many_n_m_sep {A B} (p : parser I A) (n m : nat) (sep : parser I B) : parser I (list A) :=
  p_repeat_sep p (rg_in n m) (Some sep).
(** internal/parser_impl/repeat_parser_impl.rs 88-98. *)
Definition p_count_sep {A B} (p : parser I A) (n : nat) (sep : parser I B) : parser I (list A) :=
  p_repeat_sep p (rg_in n n) (Some sep).

(** ** internal/parsers_impl/elements_parsers_impl.rs *)

(** 17-32: the loop of seq; [rest] is input[index..], [s] is seq[index..]. *)
Fixpoint seq_loop (eqb : I -> I -> bool) (whole : list I) (input : list I) (off : nat)
  (s rest : list I) (index : nat) : outcome I (list I) :=
  match s with
  | [] => Success whole index
  | c :: s' =>
      match rest with
      | x :: rest' =>
          if negb (eqb c x) then Failure (Mismatch input (off + index) index "seq") (negb (index =? 0))
          else seq_loop eqb whole input off s' rest' (S index)
      | [] => failed_with_uncommitted Incomplete
      end
  end.

(** 10-34. *)
Definition p_seq (eqb : I -> I -> bool) (s : list I) : parser I (list I) := fun inp off =>
  match ps_input inp off with
  | Some input => seq_loop eqb s input off s input 0
  | None => Panic
  end.

(** 42-56: the loop of tag ([eqb] is char equality). *)
Fixpoint tag_loop (eqb : I -> I -> bool) (whole : list I) (input : list I) (off : nat)
  (s rest : list I) (index : nat) : outcome I (list I) :=
  match s with
  | [] => Success whole index
  | c :: s' =>
      match rest with
      | actual :: rest' =>
          if negb (eqb c actual) then Failure (Mismatch input (off + index) index "tag") (negb (index =? 0))
          else tag_loop eqb whole input off s' rest' (S index)
      | [] => failed_with_uncommitted Incomplete
      end
  end.

(** 37-58. *)
Definition p_tag_by (eqb : I -> I -> bool) (s : list I) : parser I (list I) := fun inp off =>
  match ps_input inp off with
  | Some input => tag_loop eqb s input off s input 0
  | None => Panic
  end.

(** 65-79: the loop of tag_no_case ([eqic] is char::eq_ignore_ascii_case). *)
Fixpoint tag_no_case_loop (eqic : I -> I -> bool) (whole : list I) (input : list I) (off : nat)
  (s rest : list I) (index : nat) : outcome I (list I) :=
  match s with
  | [] => Success whole index
  | c :: s' =>
      match rest with
      | actual :: rest' =>
          if negb (eqic c actual)
          then Failure (Mismatch input (off + index) index "tag_no_case") (negb (index =? 0))
          else tag_no_case_loop eqic whole input off s' rest' (S index)
      | [] => failed_with_uncommitted Incomplete
      end
  end.

(** 60-81. *)
Definition p_tag_no_case_by (eqic : I -> I -> bool) (s : list I) : parser I (list I) := fun inp off =>
  match ps_input inp off with
  | Some input => tag_no_case_loop eqic s input off s input 0
  | None => Panic
  end.

(** ** internal/parsers_impl/element_parsers_impl.rs *)

(** 7-23. *)
Definition p_elm_pred_ref (f : I -> bool) : parser I I := fun inp off =>
  match ps_input inp off with
  | None => Panic
  | Some input =>
      let fail := failed_with_uncommitted (Mismatch input (off + 1) 1 "offset") in
      match input with
      | actual :: _ => if f actual then Success actual 1 else fail
      | [] => fail
      end
  end.

(** 67-85.  [contains] is Set::contains of the argument. *)
Definition p_elm_ref_of (contains : I -> bool) : parser I I := fun inp off =>
  match ps_input inp off with
  | None => Panic
  | Some input =>
      match input with
      | s :: _ =>
          if contains s then Success s 1
          else failed_with_uncommitted (Mismatch input (off + 1) 1 "expect one of")
      | [] => failed_with_uncommitted Incomplete
      end
  end.

(** 127-145. *)
Definition p_none_ref_of (contains : I -> bool) : parser I I := fun inp off =>
  match ps_input inp off with
  | None => Panic
  | Some input =>
      match input with
      | s :: _ =>
          if negb (contains s) then Success s 1
          else failed_with_uncommitted (Mismatch input (off + 1) 1 "expect none of")
      | [] => failed_with_uncommitted Incomplete
      end
  end.

(** extension/parsers/element_parsers.rs: elm_any_ref 5-9, elm_any 11-15, elm_ref 17-21, elm 23-27, elm_pred 34-39,
    elm_of 130-136, none_of 167-173 ([Clone::clone] is the identity on Copy elements). *)
Definition p_elm_any_ref : parser I I := p_elm_pred_ref (fun _ => true).
Definition p_elm_any : parser I I := p_map p_elm_any_ref (fun x => x).
Definition p_elm_pred (f : I -> bool) : parser I I := p_map (p_elm_pred_ref f) (fun x => x).
Definition p_elm_ref_eq (eqb : I -> I -> bool) (e : I) : parser I I := p_elm_pred_ref (fun actual => eqb actual e).
Definition p_elm_eq (eqb : I -> I -> bool) (e : I) : parser I I := p_map (p_elm_ref_eq eqb e) (fun x => x).
Definition p_elm_of_set (contains : I -> bool) : parser I I := p_map (p_elm_ref_of contains) (fun x => x).
Definition p_none_of_set (contains : I -> bool) : parser I I := p_map (p_none_ref_of contains) (fun x => x).

(** ** internal/parsers_impl/taken_parsers_impl.rs *)

(** 9-18. *)
Definition p_take (n : nat) : parser I (list I) := fun inp off =>
  match ps_input inp off with
  | None => Panic
  | Some input =>
      if n <=? length input then
        match slice_with_len inp off n with
        | Some s => Success s n
        | None => Panic
        end
      else failed_with_uncommitted Incomplete
  end.

(** 27-38 (= 53-64, 79-90): the scanning loop of the take_while family. *)
Fixpoint tw_loop (f : I -> bool) (rest : list I) (index : nat) (start : option nat) (len : nat)
  : option nat * nat :=
  match rest with
  | [] => (start, len)
  | c :: rest' =>
      if f c then tw_loop f rest' (S index) (match start with None => Some index | s => s end) (S len)
      else tw_loop f rest' (S index) start len
  end.

(** 21-44. *)
Definition p_take_while0 (f : I -> bool) : parser I (list I) := fun inp off =>
  match ps_input inp off with
  | None => Panic
  | Some input =>
      match tw_loop f input 0 None 0 with
      | (Some s, len) =>
          match slice input s (s + len) with Some v => Success v len | None => Panic end
      | (None, _) =>
          match slice_with_len inp off 0 with Some v => Success v 0 | None => Panic end
      end
  end.

(** 47-70. *)
Definition p_take_while1 (f : I -> bool) : parser I (list I) := fun inp off =>
  match ps_input inp off with
  | None => Panic
  | Some input =>
      match tw_loop f input 0 None 0 with
      | (Some s, len) =>
          match slice input s (s + len) with Some v => Success v len | None => Panic end
      | (None, _) => failed_with_uncommitted Incomplete
      end
  end.

(** 73-103. *)
Definition p_take_while_n_m (n m : nat) (f : I -> bool) : parser I (list I) := fun inp off =>
  match ps_input inp off with
  | None => Panic
  | Some input =>
      match tw_loop f input 0 None 0 with
      | (Some s, len) =>
          match slice input s (s + len) with
          | Some v =>
              if (n <=? length v) && (length v <=? m) then Success v len
              else failed_with_uncommitted Incomplete
          | None => Panic
          end
      | (None, _) => failed_with_uncommitted Incomplete
      end
  end.

(** 112-120 (= 137-145): the scanning loop of the take_till family: final [index] and flag [b]. *)
Fixpoint tt_loop (f : I -> bool) (rest : list I) (index : nat) : nat * bool :=
  match rest with
  | [] => (index, false)
  | c :: rest' => if f c then (index, true) else tt_loop f rest' (S index)
  end.

(** 106-128. *)
Definition p_take_till0 (f : I -> bool) : parser I (list I) := fun inp off =>
  match ps_input inp off with
  | None => Panic
  | Some input =>
      match tt_loop f input 0 with
      | (index, true) =>
          match slice_with_len inp off (index + 1) with
          | Some v => Success v (index + 1)
          | None => Panic
          end
      | (_, false) => Success input (length input)
      end
  end.

(** 131-152. *)
Definition p_take_till1 (f : I -> bool) : parser I (list I) := fun inp off =>
  match ps_input inp off with
  | None => Panic
  | Some input =>
      match tt_loop f input 0 with
      | (index, true) =>
          match slice_with_len inp off (index + 1) with
          | Some v => Success v (index + 1)
          | None => Panic
          end
      | (_, false) => failed_with_uncommitted Incomplete
      end
  end.

(** ** the remaining small files of internal/parsers_impl *)

(** collect_parsers_impl.rs 7-21. *)
Definition p_collect {A} (p : parser I A) : parser I (list I) := fun inp off =>
  match p inp off with
  | Success _ n =>
      match slice_with_len inp off n with
      | Some s => Success s n
      | None => Panic
      end
  | Failure e c => Failure e c
  | Panic => Panic
  | Diverge => Diverge
  end.

(** conversion_parsers_impl.rs 8-30 ([inr] is Err). *)
Definition p_map_res {A B E} (p : parser I A) (f : A -> B + E) : parser I B := fun inp off =>
  match p inp off with
  | Success a n =>
      match f a with
      | inl v => Success v n
      | inr _ =>
          match ps_input inp off with
          | Some rest => failed_with_uncommitted (Conversion rest (last_offset_or0 off) 0 "Conversion error")
          | None => Panic
          end
      end
  | Failure e c => Failure e c
  | Panic => Panic
  | Diverge => Diverge
  end.

(** conversion_parsers_impl.rs 32-56. *)
Definition p_map_opt {A B} (p : parser I A) (f : A -> option B) : parser I B := fun inp off =>
  match p inp off with
  | Success a n =>
      match f a with
      | Some v => Success v n
      | None =>
          match ps_input inp off with
          | Some rest => failed_with_uncommitted (Conversion rest (last_offset_or0 off) 0 "Conversion error")
          | None => Panic
          end
      end
  | Failure e c => Failure e c
  | Panic => Panic
  | Diverge => Diverge
  end.

(** discard_parsers_impl.rs 8-19. *)
Definition p_discard {A} (p : parser I A) : parser I unit := fun inp off =>
  match p inp off with
  | Success _ n => Success tt n
  | Failure e c => Failure e c
  | Panic => Panic
  | Diverge => Diverge
  end.

(** lazy_parsers_impl.rs 8-16. *)
Definition p_lazy {A} (f : unit -> parser I A) : parser I A := fun inp off => f tt inp off.

(** logging_parsers_impl.rs 8-25: the closure is evaluated, its text goes to the log (not modelled). *)
Definition p_log_map {A B} (p : parser I A) (f : outcome I A -> B) : parser I A := fun inp off =>
  let ps := p inp off in let _s := f ps in ps.

(** logging_parsers_impl.rs 28-50. *)
Definition p_name {A} (p : parser I A) (name : string) : parser I A := fun inp off =>
  match p inp off with
  | Failure e c =>
      if is_custom e then Failure e c
      else Failure (Custom (last_offset_or0 off) (Some e) name) c
  | o => o
  end.

(** logging_parsers_impl.rs 53-72. *)
Definition p_expect {A} (p : parser I A) (name : string) : parser I A := fun inp off =>
  match p inp off with
  | Failure e c => Failure (Expect (last_offset_or0 off) e name) c
  | o => o
  end.

(** offset_parsers_impl.rs 7-21. *)
Definition p_last_offset {A} (p : parser I A) : parser I nat := fun inp off =>
  match p inp off with
  | Success _ n => Success (last_offset_or0 (off + n)) n
  | Failure e c => Failure e c
  | Panic => Panic
  | Diverge => Diverge
  end.

(** offset_parsers_impl.rs 24-38. *)
Definition p_next_offset {A} (p : parser I A) : parser I nat := fun inp off =>
  match p inp off with
  | Success _ n => Success (off + n) n
  | Failure e c => Failure e c
  | Panic => Panic
  | Diverge => Diverge
  end.

(** peek_parsers_impl.rs 8-19. *)
Definition p_peek {A} (p : parser I A) : parser I A := fun inp off =>
  match p inp off with
  | Success v _ => Success v 0
  | Failure e c => Failure e c
  | Panic => Panic
  | Diverge => Diverge
  end.

(** primitive_parsers_impl.rs 8-22. *)
Definition p_end : parser I unit := fun inp off =>
  match ps_input inp off with
  | None => Panic
  | Some input =>
      match input with
      | _ :: _ => failed_with_uncommitted (Mismatch input (off + 1) 1 "expect end of input")
      | [] => Success tt 0
      end
  end.

(** skip_parser_impl.rs 9-18. *)
Definition p_skip (n : nat) : parser I unit := fun inp off =>
  match ps_input inp off with
  | None => Panic
  | Some input =>
      if n <=? length input then Success tt n else failed_with_uncommitted Incomplete
  end.

(** skip_parser_impl.rs 21-43; operator [*]. *)
Definition p_skip_left {A B} (pa : parser I A) (pb : parser I B) : parser I B := fun inp off =>
  match pa inp off with
  | Success _ n1 =>
      match pb inp (off + n1) with
      | Success b n2 => Success b (n1 + n2)
      | Failure e c => Failure e c
      | Panic => Panic
      | Diverge => Diverge
      end
  | Failure e c => Failure e c
  | Panic => Panic
  | Diverge => Diverge
  end.

(** skip_parser_impl.rs 46-69; operator [-]. *)
Definition p_skip_right {A B} (pa : parser I A) (pb : parser I B) : parser I A := fun inp off =>
  match pa inp off with
  | Success a n1 =>
      match pb inp (off + n1) with
      | Success _ n2 => Success a (n1 + n2)
      | Failure e c => advance_success n1 (Failure e c)
      | Panic => Panic
      | Diverge => Diverge
      end
  | Failure e c => Failure e c
  | Panic => Panic
  | Diverge => Diverge
  end.

(** skip_parser_impl.rs 71-81. *)
Definition p_surround {A B C} (lp : parser I A) (p : parser I B) (rp : parser I C) : parser I B :=
  p_skip_left lp (p_skip_right p rp).

(** Not in the source: the run that never returns; bottom of recursive grammars. *)
Definition p_diverge {A} : parser I A := fun _ _ => Diverge.

End Comb.

Arguments RDone {A}. Arguments RPanic {A}. Arguments RDiverge {A}.

(** ** Parsers over u8 / char elements (codes in N) *)
Local Open Scope N_scope.

Definition in_range (a b x : N) : bool := (a <=? x) && (x <=? b).

(** core/element.rs 51-53 (u8), 121-123 (char). *)
Definition is_ascii_space (x : N) : bool := (x =? 32) || (x =? 9).
(** core/element.rs 55-57, 125-127. *)
Definition is_ascii_multi_space (x : N) : bool := is_ascii_space x || ((x =? 10) || (x =? 13)).
(** core/element.rs 59-61, 129-131. *)
Definition is_ascii_whitespace (x : N) : bool := is_ascii_multi_space x || (x =? 12).
(** core/element.rs 63-65. *)
Definition is_ascii_u8 (x : N) : bool := N.land x 128 =? 0.
(** core/element.rs 133-135. *)
Definition is_ascii_char (x : N) : bool := x <=? 127.
(** core/element.rs 67-69, 137-139. *)
Definition is_ascii_alpha_uppercase (x : N) : bool := in_range 65 90 x.
(** core/element.rs 71-73, 141-143. *)
Definition is_ascii_alpha_lowercase (x : N) : bool := in_range 97 122 x.
(** core/element.rs 75-77, 145-147. *)
Definition is_ascii_alpha (x : N) : bool := in_range 65 90 x || in_range 97 122 x.
(** core/element.rs 79-81, 149-151. *)
Definition is_ascii_digit (x : N) : bool := in_range 48 57 x.
(** core/element.rs 83-85, 153-155. *)
Definition is_ascii_digit_zero (x : N) : bool := x =? 48.
(** core/element.rs 87-89, 157-159. *)
Definition is_ascii_digit_non_zero (x : N) : bool := negb (is_ascii_digit_zero x).
(** core/element.rs 91-93, 161-163. *)
Definition is_ascii_alpha_digit (x : N) : bool := in_range 48 57 x || in_range 65 90 x || in_range 97 122 x.
(** core/element.rs 95-97, 165-167. *)
Definition is_ascii_hex_digit (x : N) : bool := in_range 48 57 x || in_range 65 70 x || in_range 97 102 x.
(** core/element.rs 99-101, 169-171. *)
Definition is_ascii_oct_digit (x : N) : bool := in_range 48 56 x.
(** core/element.rs 103-105, 173-175. *)
Definition is_ascii_punctuation (x : N) : bool :=
  in_range 33 47 x || in_range 58 64 x || in_range 91 96 x || in_range 123 126 x.
(** core/element.rs 107-109, 177-179. *)
Definition is_ascii_graphic (x : N) : bool := in_range 33 126 x.
(** core/element.rs 111-113, 181-183. *)
Definition is_ascii_control (x : N) : bool := in_range 0 31 x || (x =? 127).

(** extension/parsers/element_parsers.rs 17-27 at u8/char. *)
Definition p_elm_ref (e : N) : parser N N := p_elm_ref_eq N.eqb e.
Definition p_elm (e : N) : parser N N := p_elm_eq N.eqb e.

(** internal/parsers_impl/element_parsers_impl.rs 25-65 and the Clone variants of extension/parsers/element_parsers.rs. *)
Definition p_elm_space : parser N N := p_elm_pred is_ascii_space.
Definition p_elm_multi_space : parser N N := p_elm_pred is_ascii_multi_space.
Definition p_elm_alpha : parser N N := p_elm_pred is_ascii_alpha.
Definition p_elm_alpha_digit : parser N N := p_elm_pred is_ascii_alpha_digit.
Definition p_elm_digit_ref : parser N N := p_elm_pred_ref is_ascii_digit.
Definition p_elm_digit : parser N N := p_elm_pred is_ascii_digit.
Definition p_elm_hex_digit : parser N N := p_elm_pred is_ascii_hex_digit.
Definition p_elm_oct_digit : parser N N := p_elm_pred is_ascii_oct_digit.
(** lib.rs 886-890, 910-914. *)
Definition p_elm_digit_1_9_ref : parser N N := p_filter_not p_elm_digit_ref is_ascii_digit_zero.
Definition p_elm_digit_1_9 : parser N N := p_map p_elm_digit_1_9_ref (fun x => x).

(** utils/set.rs 16-20 ([T]), 22-30 (str), 78-98 ([u8; N]). *)
Definition set_contains (l : list N) (x : N) : bool := existsb (N.eqb x) l.
(** utils/set.rs 33-41 (RangeFull). *)
Definition full_contains (x : N) : bool := true.
(** utils/set.rs 44-48 (Range). *)
Definition range_contains (start end_ x : N) : bool := (start <=? x) && (x <? end_).
(** utils/set.rs 51-55 (RangeInclusive). *)
Definition range_in_contains (start end_ x : N) : bool := (start <=? x) && (x <=? end_).
(** utils/set.rs 58-62 (RangeFrom). *)
Definition range_from_contains (start x : N) : bool := start <=? x.
(** utils/set.rs 65-69 (RangeTo). *)
Definition range_to_contains (end_ x : N) : bool := x <? end_.
(** utils/set.rs 72-76 (RangeToInclusive). *)
Definition range_to_in_contains (end_ x : N) : bool := x <=? end_.

(** extension/parsers/element_parsers.rs 130-135, 162-167: elm_of / none_of with a slice, array or str argument. *)
Definition p_elm_of (l : list N) : parser N N := p_elm_of_set (set_contains l).
Definition p_none_of (l : list N) : parser N N := p_none_of_set (set_contains l).
(** internal/parsers_impl/element_parsers_impl.rs 87-105 and elm_in. *)
Definition p_elm_in (a b : N) : parser N N := p_elm_of_set (range_in_contains a b).
(** internal/parsers_impl/element_parsers_impl.rs 107-125 and elm_from_until. *)
Definition p_elm_from_until (a b : N) : parser N N := p_elm_of_set (range_contains a b).

Local Close Scope N_scope.

(** internal/parsers_impl/elements_parsers_impl.rs 10-34 at u8/char. *)
Definition p_seqN (s : list N) : parser N (list N) := p_seq N.eqb s.

(** core::char::to_ascii_lowercase / eq_ignore_ascii_case of the Rust standard library. *)
Definition ascii_lower (x : N) : N := if in_range 65 90 x then (x + 32)%N else x.
Definition eq_ignore_ascii_case (a b : N) : bool := N.eqb (ascii_lower a) (ascii_lower b).

(** internal/parsers_impl/elements_parsers_impl.rs 37-58 and 60-81 at char. *)
Definition p_tag (s : list N) : parser N (list N) := p_tag_by N.eqb s.
Definition p_tag_no_case (s : list N) : parser N (list N) := p_tag_no_case_by eq_ignore_ascii_case s.

(** Number of bytes of the UTF-8 encoding of a char / of a str (str::len). *)
Definition utf8_len_char (c : N) : nat :=
  if (c <? 128)%N then 1 else if (c <? 2048)%N then 2 else if (c <? 65536)%N then 3 else 4.
Definition utf8_len (s : list N) : nat := fold_right (fun c n => utf8_len_char c + n) 0 s.

(** internal/parsers_impl/elements_parsers_impl.rs 83-107.  [find] is Regex::captures(..).get(0) of the compiled
    pattern: the matched text, an arbitrary oracle here.  The reported length is the byte length (line 97). *)
Definition p_regex (find : list N -> option (list N)) : parser N (list N) := fun inp off =>
  match ps_input inp off with
  | None => Panic
  | Some input =>
      match find input with
      | Some str => Success str (utf8_len str)
      | None => failed_with_uncommitted Incomplete
      end
  end.
