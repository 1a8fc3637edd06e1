(** The hocon crate: hocon/src/parsers.rs and hocon/src/model.rs with hocon/src/model/*.rs.
    A String is the list of its bytes.  A HashMap is an association list with distinct keys (Text.v), in some order: the
    iteration order of a HashMap is unspecified, so a statement about all association lists is one about all orders.
    rust_decimal's Decimal::from_str_radix(_, 10) is the oracle [dec]; env::var is the oracle [env]; reading a file is the
    oracle [files].  Rc sharing is invisible (values are immutable once shared).  println! and Display are not modelled. *)
From Verif Require Import Base Core Comb Text Json.
Set Implicit Arguments.
Local Open Scope string_scope.
Local Open Scope nat_scope.
Local Open Scope list_scope.

(** hocon/src/model/time_unit.rs 4-12. *)
Inductive time_unit := UDays | UHours | UMicros | UMillis | UMinutes | UNanos | USeconds.

(** A computation that may panic or run forever. *)
Inductive rs (A : Type) := ROk (a : A) | RPanic | RDiverge.
Arguments ROk {A} a. Arguments RPanic {A}. Arguments RDiverge {A}.
Definition rbind {A B} (x : rs A) (f : A -> rs B) : rs B :=
  match x with ROk a => f a | RPanic => RPanic | RDiverge => RDiverge end.

Section Hocon.
Variable D : Type.
Variable dec : list N -> option D.

(** ** hocon/src/model/config_value.rs 18-38, config_value_link.rs 6-9, config_include_value.rs 4-7. *)
Inductive cv :=
| CNull
| CBool (b : bool)
| CStr (s : list N)
| CNum (d : D)
| CDur (d : D) (u : time_unit)
| CArr (l : list cv)
| CObj (m : list (list N * cv))
| CEnum (prev : option cv) (l : list cv)
| CRef (prev : option cv) (path : list N) (missing : bool)
| CIncl (method file : list N)
| CLink (prev value : cv).
Notation key := (list N).

(** config_value.rs 331-336. *)
Definition latest (v : cv) : cv := match v with CLink _ x => x | _ => v end.
(** config_value.rs 338-350. *)
Definition prev_latest (v : cv) : cv :=
  match v with
  | CLink p _ => match p with CLink _ x => x | _ => p end
  | _ => v
  end.
(** config_value.rs 359-374: the values of a chain of links, oldest first. *)
Fixpoint to_vec_rev (v : cv) : list cv := match v with CLink p x => x :: to_vec_rev p | _ => [v] end.
Definition to_vec (v : cv) : list cv := rev (to_vec_rev v).
(** config_value.rs 376-388. *)
Definition push (v c : cv) : cv :=
  CLink v (match c with CRef _ path missing => CRef (Some v) path missing | _ => c end).
(** config_value.rs 352-357. *)
Definition contains (v : cv) (k : key) : bool :=
  match v with CObj m => match hm_get m k with Some _ => true | None => false end | _ => false end.

(** config_value.rs 72-90, config_object_value.rs 39-52 and config_array_value.rs 21-25: [merge r l] is l.merge_with(r).  The
    entries of the right object are visited one by one. *)
Definition merge_entry (m : list (key * cv)) (e : key * (cv * (cv -> cv))) : list (key * cv) :=
  match hm_get m (fst e) with
  | None => hm_set m (fst e) (fst (snd e))
  | Some old => hm_set m (fst e) (snd (snd e) old)
  end.
Fixpoint merge (r : cv) : cv -> cv :=
  let step (l : cv) :=
    match l, r with
    | CObj ml, CObj mr => CObj (fold_left merge_entry (map (fun kv => (fst kv, (snd kv, merge (snd kv)))) mr) ml)
    | CArr ll, CArr lr => CArr (ll ++ lr)
    | _, _ => l
    end in
  fix go (l : cv) : cv :=
    match l, r with
    | CLink _ _, CLink _ _ => l
    | CLink _ x, _ => push l (go x)
    | _, _ => step l
    end.
Definition merge_with (l r : cv) : cv := merge r l.
(** config_object_value.rs 39-52. *)
Definition merge_maps (ml mr : list (key * cv)) : list (key * cv) :=
  fold_left (fun m kv => match hm_get m (fst kv) with
                         | None => hm_set m (fst kv) (snd kv)
                         | Some old => hm_set m (fst kv) (merge_with old (snd kv))
                         end) mr ml.
(** config_value.rs 59-70. *)
Definition combine (v other : cv) : cv :=
  match other with CLink _ _ => fold_left push (to_vec other) v | _ => v end.

(** ** hocon/src/parsers.rs *)
(** 13-15 *)
Definition hspace : parser N (list N) := p_collect (p_many0 (p_elm_ref_of (set_contains [32; 9; 13; 10]%N))).
(** 7-11 *)
Definition comment_head : parser N (list N) :=
  p_or (p_attempt (p_collect (p_seqN (bs "//")))) (p_collect (p_elm_ref (chr "#"))).
Definition comment_tail : parser N (list N) := p_take_till0 (fun c => (c =? 13)%N || (c =? 10)%N).
Definition comment : parser N (list N) := p_collect (p_and hspace (p_many1 (p_and comment_head comment_tail))).
(** 17-19 *)
Definition space_or_comment : parser N unit := p_discard (p_or (p_attempt comment) hspace).
(** [x.surround(space_or_comment(), space_or_comment())], used throughout parsers.rs (42, 97, 101, 171-208, 242). *)
Definition spaced {A} (p : parser N A) : parser N A := p_surround space_or_comment p space_or_comment.

(** 229-231 *)
Definition path_element : parser N (list N) :=
  p_collect (p_many1 (p_or p_elm_alpha (p_elm_of (bs "-_")))).
(** 233-239 (the final map(String::from) is the identity on bytes) *)
Definition path_p : parser N (list N) := p_map_res (p_collect (p_many1_sep path_element (p_elm (chr ".")))) from_utf8.

(** 21-26 *)
Definition include_method : parser N (list N) :=
  p_map_res (p_collect (p_or (p_seqN (bs "file")) (p_seqN (bs "url")))) from_utf8.
(** 28-31: format!("\"{}\"", path) puts the path between quotes *)
Definition include_cv : parser N cv :=
  p_map (p_and (p_skip_left (p_skip_left (p_seqN (bs "include")) (p_elm 32)) include_method)
               (p_surround (p_seqN (bs "(" ++ [34]%N)) path_p (p_seqN ([34]%N ++ bs ")"))))
    (fun mp => CIncl (fst mp) ([34]%N ++ snd mp ++ [34]%N)).

(** 33-44 *)
Definition hinteger : parser N (list N) :=
  p_map_res (p_or (p_collect (p_and p_elm_digit_1_9_ref (p_many0 p_elm_digit_ref))) (p_collect (p_elm_ref (chr "0")))) from_utf8.
Definition hfrac : parser N (list N) :=
  p_map_res (p_collect (p_and (p_elm_ref (chr ".")) (p_many1 p_elm_digit_ref))) from_utf8.
Definition hexp : parser N (list N) :=
  p_map_res (p_collect (p_and (p_and (p_elm_of (bs "eE")) (p_opt (p_elm_of (bs "+-")))) (p_many1 p_elm_digit_ref))) from_utf8.
Definition hnumber : parser N (option N * list N * option (list N) * option (list N)) :=
  spaced (p_and (p_and (p_and (p_opt (p_elm_ref (chr "-"))) hinteger) (p_opt hfrac)) (p_opt hexp)).
(** 77-94; ConfigNumberValue::from(String) is config_number_value.rs 26-30 (unwrap) *)
Definition number_of (x : option N * list N * option (list N) * option (list N)) : option D :=
  match x with
  | (None, i, None, None) => dec i
  | (Some _, i, None, None) => dec i
  | (_, i, Some f, None) => dec (i ++ f)
  | (_, i, Some f, Some e) => dec (i ++ f ++ e)
  | _ => None (* panic!("no match !!!") *)
  end.
Definition number_value : parser N D := p_map_panic hnumber number_of.
(** 46-71 *)
Definition unit_of (u : time_unit) (p : parser N (list N)) : parser N time_unit := p_map p (fun _ => u).
Definition seq_a (s : string) : parser N (list N) := p_attempt (p_seqN (bs s)).
Definition unit_ns := unit_of UNanos
  (p_or (p_or (p_or (p_or (seq_a "ns") (seq_a "nano")) (seq_a "nanos")) (seq_a "nanosecond")) (p_seqN (bs "nanoseconds"))).
Definition unit_us := unit_of UMicros
  (p_or (p_or (p_or (p_or (seq_a "us") (seq_a "micro")) (seq_a "micros")) (seq_a "microsecond")) (p_seqN (bs "microseconds"))).
Definition unit_ms := unit_of UMillis
  (p_or (p_or (p_or (p_or (seq_a "ms") (seq_a "milli")) (seq_a "millis")) (seq_a "millisecond")) (p_seqN (bs "milliseconds"))).
Definition unit_s := unit_of USeconds (p_or (p_or (seq_a "s") (seq_a "second")) (p_seqN (bs "seconds"))).
Definition unit_m := unit_of UMinutes (p_or (p_or (seq_a "m") (seq_a "minute")) (p_seqN (bs "minutes"))).
Definition unit_h := unit_of UHours (p_or (p_or (seq_a "h") (seq_a "hour")) (p_seqN (bs "hours"))).
Definition unit_d := unit_of UDays (p_or (p_or (seq_a "d") (seq_a "day")) (p_seqN (bs "days"))).
Definition time_unit_p : parser N time_unit :=
  p_or (p_or (p_or (p_or (p_or (p_or (p_attempt unit_ns) (p_attempt unit_us)) (p_attempt unit_ms)) (p_attempt unit_s))
    (p_attempt unit_m)) (p_attempt unit_h)) unit_d.
Definition duration : parser N (D * time_unit) := p_and number_value time_unit_p.
(** 73-75 *)
Definition duration_value : parser N cv := p_map duration (fun nu => CDur (fst nu) (snd nu)).

(** 96-102 *)
Definition double_quote : parser N N := spaced (p_elm_ref 34).
Definition single_quote : parser N N := spaced (p_elm_ref 39).
(** 104-133; special_char, escape_sequence, utf16_char and utf16_string are spelt exactly as in json_byte.rs (Json.v) *)
Definition hchar_string : parser N (list N) :=
  p_map_res (p_many1 (p_map (p_or (p_none_ref_of (set_contains (bs "[]" ++ [13; 10; 92; 34; 39]%N))) escape_sequence) (fun x => x)))
    from_utf8.
Definition string_surround : parser N (list (list N)) := p_many1 (p_or (p_attempt hchar_string) (utf16_string true)).
Definition hstring : parser N (list N) :=
  p_map (p_or (p_or (p_attempt (p_surround double_quote string_surround double_quote))
                    (p_attempt (p_surround single_quote string_surround single_quote))) string_surround)
    (@List.concat N).
(** 166-168 *)
Definition string_cv : parser N cv := p_map hstring CStr.
(** 187-189 *)
Definition key_p : parser N key := spaced (p_or (p_attempt path_p) hstring).
(** 183-185 *)
Definition kv : parser N unit := p_discard (p_elm_ref_of (set_contains (bs "=:"))).
(** 207-209 *)
Definition comma : parser N N := spaced (p_elm_ref (chr ",")).

(** 241-257 *)
Definition reference : parser N (bool * list N) :=
  p_surround (spaced (p_seqN (bs "${")))
    (p_and (p_map (p_opt (p_elm_ref (chr "?"))) (fun v => match v with Some _ => true | None => false end))
           (p_map_res (p_collect (p_many1_sep path_element (p_elm (chr ".")))) from_utf8))
    (spaced (p_seqN (bs "}"))).
(** 267-273 *)
Definition reference_cv : parser N cv := p_map reference (fun mn => CRef None (snd mn) (fst mn)).
(** 275-282 *)
Definition enumeration_cv : parser N cv := p_map (p_many1 (p_or (p_attempt string_cv) reference_cv)) (fun vs => CEnum None vs).
(** 284-292 *)
Definition simple_cv : parser N cv :=
  spaced (p_or (p_or (p_or (p_or (p_or
    (p_attempt (p_map (p_seqN (bs "null")) (fun _ => CNull)))
    (p_attempt (p_map (p_seqN (bs "true")) (fun _ => CBool true))))
    (p_attempt (p_map (p_seqN (bs "false")) (fun _ => CBool false))))
    (p_attempt duration_value))
    (p_attempt (p_map number_value CNum)))
    string_cv).

(** 215-226: repeated keys of a braced object *)
Definition obj_insert (m : list (key * cv)) (e : key * cv) : list (key * cv) :=
  match hm_get m (fst e) with
  | Some v => hm_set m (fst e) (push v (snd e))
  | None => hm_set m (fst e) (snd e)
  end.
Definition obj_fold (l : list (key * cv)) : list (key * cv) := fold_left obj_insert l [].
(** 307-317: repeated keys at top level *)
Definition top_insert (m : list (key * cv)) (e : key * cv) : list (key * cv) :=
  match hm_get m (fst e) with
  | None => hm_set m (fst e) (snd e)
  | Some v => hm_set m (fst e) (merge_with v (snd e))
  end.
Definition top_fold (l : list (key * cv)) : list (key * cv) := fold_left top_insert l [].

Section Recursion.
(** lazy(config_value) and lazy(property) *)
Variable value : parser N cv.
Variable prop : parser N (key * cv).
(** 170-181, 263-265 *)
Definition array_cv : parser N cv :=
  p_map (p_surround (spaced (p_elm_ref (chr "["))) (p_many0_sep (p_lazy (fun _ => value)) comma) (spaced (p_elm_ref (chr "]")))) CArr.
(** 199-227, 259-261 *)
Definition object_cv : parser N cv :=
  p_map (p_surround (spaced (p_elm_ref (chr "{"))) (p_many0_sep (p_lazy (fun _ => prop)) (p_opt comma)) (spaced (p_elm_ref (chr "}"))))
    (fun ps => CObj (obj_fold ps)).
(** 191-193, 195-197 *)
Definition property_step : parser N (key * cv) :=
  p_and key_p (p_or (p_or (p_attempt (p_skip_left kv (p_lazy (fun _ => value)))) (p_attempt object_cv)) array_cv).
(** 294-301 *)
Definition value_step : parser N cv :=
  spaced (p_or (p_or (p_or (p_or (p_attempt array_cv) (p_attempt object_cv)) (p_attempt reference_cv)) (p_attempt simple_cv))
    enumeration_cv).
(** 303-323 *)
Definition config_step : parser N (list cv) :=
  p_or (p_or (p_attempt (p_map (p_many1 property_step) (fun ps => [CObj (top_fold ps)])))
             (p_attempt (p_many1 include_cv)))
       (p_many0 (p_or (p_attempt object_cv) array_cv)).
End Recursion.

(** parsers.rs 179, 192 and 212: the recursion through lazy; [fuel] bounds its depth. *)
Fixpoint value_fuel (fuel : nat) (inp : list N) (off : nat) {struct fuel} : outcome N cv :=
  match fuel with 0 => Diverge | S n => value_step (value_fuel n) (property_fuel n) inp off end
with property_fuel (fuel : nat) (inp : list N) (off : nat) {struct fuel} : outcome N (key * cv) :=
  match fuel with 0 => Diverge | S n => property_step (value_fuel n) (property_fuel n) inp off end.
(** 325-327 *)
Definition hocon_fuel (fuel : nat) : parser N (list cv) :=
  p_skip_right (p_skip_left space_or_comment (config_step (value_fuel fuel) (property_fuel fuel))) p_end.
Definition hocon_p : parser N (list cv) := fun inp off => hocon_fuel (S (length inp)) inp off.

(** ** Lookup: config_value.rs 294-329.  [path.split(".")]: the first component and, when there is a ".", the rest. *)
Fixpoint split_dot (s : list N) : list N * option (list N) :=
  match s with
  | [] => ([], None)
  | c :: t => if (c =? 46)%N then ([], Some t) else let (a, r) := split_dot t in (c :: a, r)
  end.
(** config_value.rs 295 and 313: [key().parse(path).to_result().expect(..)] *)
Definition check_path (path : list N) : rs unit :=
  match key_p path 0 with
  | Success _ _ => ROk tt
  | Failure _ _ => RPanic
  | Panic => RPanic
  | Diverge => RDiverge
  end.
(** config_value.rs 312-329 *)
Fixpoint get_value_fuel (fuel : nat) (v : cv) (path : list N) : rs (option cv) :=
  match fuel with
  | 0 => RDiverge
  | S n =>
      rbind (check_path path) (fun _ =>
        let (k, rest) := split_dot path in
        match v with
        | CObj m =>
            match hm_get m k with
            | Some c => match rest with Some next => get_value_fuel n (latest c) next | None => ROk (Some (latest c)) end
            | None => ROk None
            end
        | _ => ROk None
        end)
  end.
Definition get_value (v : cv) (path : list N) : rs (option cv) := get_value_fuel (S (length path)) v path.
(** config_value.rs 294-310 *)
Fixpoint has_path_fuel (fuel : nat) (v : cv) (path : list N) : rs bool :=
  match fuel with
  | 0 => RDiverge
  | S n =>
      rbind (check_path path) (fun _ =>
        let (k, rest) := split_dot path in
        match v with
        | CObj m =>
            match hm_get m k with
            | Some c => match rest with Some next => has_path_fuel n (latest c) next | None => ROk true end
            | None => ROk false
            end
        | _ => ROk false
        end)
  end.
Definition has_path (v : cv) (path : list N) : rs bool := has_path_fuel (S (length path)) v path.

(** ** Resolution: config_value.rs 92-217, model.rs 71-106 *)
Section Resolve.
Variable env : list N -> option (list N).
Variable files : list N -> option (list N).

Fixpoint rmap {A B} (f : A -> rs B) (l : list A) : rs (list B) :=
  match l with
  | [] => ROk []
  | x :: t => rbind (f x) (fun y => rbind (rmap f t) (fun ys => ROk (y :: ys)))
  end.
(** config_value.rs 130: [key.split(".")] *)
Fixpoint split_all_fuel (fuel : nat) (s : list N) : list (list N) :=
  match fuel with
  | 0 => []
  | S n => match split_dot s with (a, Some t) => a :: split_all_fuel n t | (a, None) => [a] end
  end.
Definition split_all (s : list N) : list (list N) := split_all_fuel (S (length s)) s.
(** config_value.rs 129-141: the components after the first become nested objects around [v] *)
Definition nest (ks : list key) (v : cv) : cv := fold_right (fun k acc => CObj [(k, acc)]) v ks.
(** config_value.rs 128-151, one entry of the loop *)
Definition undot_entry (acc : list (key * cv)) (e : list key * cv) : list (key * cv) :=
  match fst e with
  | [] => acc
  | k :: ks => top_insert acc (k, nest ks (snd e))
  end.

(** The recursive calls to resolve, with the remaining depth of the call stack in them. *)
Variable resolve_rec : cv -> option cv -> rs cv.
(** model.rs 97-106 *)
Definition resolve_stage0 (vs : list cv) : rs cv :=
  match vs with
  | [] => RPanic (* config_values[0] *)
  | v :: t =>
      rbind (resolve_rec v None) (fun cur =>
        rbind (rmap (fun c => resolve_rec c None) t) (fun ts => ROk (fold_left merge_with ts cur)))
  end.
(** model.rs 91-95 *)
Definition resolve_stage1 (v : cv) : rs cv := resolve_rec v (Some v).
(** model.rs 77-89: Err is [None].  The text of the error includes pe.input_string() (87), whose slice expression can panic
    (parse_error.rs 77-104, C29). *)
Definition parse_from_string_with (text : list N) : rs (option cv) :=
  match hocon_p text 0 with
  | Success vs _ => rbind (resolve_stage0 vs) (fun v => rbind (resolve_stage1 v) (fun c => ROk (Some c)))
  | Failure e _ => match error_input e with Some _ => ROk None | None => RPanic end
  | Panic => RPanic
  | Diverge => RDiverge
  end.
(** model.rs 71-75: a file that cannot be read counts as empty *)
Definition load_from_file_with (file : list N) : rs (option cv) :=
  parse_from_string_with (match files file with Some t => t | None => [] end).

(** config_value.rs 93-217 *)
Definition resolve_step (v : cv) (source : option cv) : rs cv :=
  match v, source with
  | CIncl _ file, _ => (* 95-101 *)
      rbind (load_from_file_with file) (fun c => match c with Some c => ROk c | None => RPanic end)
  | CLink _ _, Some _ => (* 102-114 *)
      match to_vec v with
      | [] => ROk v
      | h :: t =>
          rbind (resolve_rec h source) (fun h' =>
            rbind (rmap (fun e => resolve_rec e source) t) (fun t' => ROk (fold_left push t' h')))
      end
  | CArr l, Some _ => rbind (rmap (fun e => resolve_rec e source) l) (fun l' => ROk (CArr l')) (* 115-125 *)
  | CObj m, None => (* 126-156 *)
      rbind (rmap (fun kv => rbind (resolve_rec (snd kv) None) (fun c => ROk (split_all (fst kv), c)))
               (filter (fun kv => set_contains (fst kv) 46%N) m)) (fun es =>
        match fold_left undot_entry es [] with
        | [] => ROk v
        | m' => ROk (CObj m')
        end)
  | CObj m, Some _ => (* 157-167 *)
      rbind (rmap (fun kv => rbind (resolve_rec (snd kv) source) (fun c => ROk (fst kv, c))) m) (fun m' => ROk (CObj m'))
  | CEnum prev l, Some _ => (* 168-190 *)
      rbind (rmap (fun e => resolve_rec e source) l) (fun l' =>
        match flat_map (fun c => match c with CStr s => s | _ => [] end) l' with
        | [] => match prev with Some p => ROk (prev_latest p) | None => RPanic end
        | s => ROk (CStr s)
        end)
  | CRef prev path missing, Some src => (* 191-214 *)
      rbind (get_value src path) (fun found =>
        let found := match found with Some c => Some c | None => match env path with Some s => Some (CStr s) | None => None end end in
        match found with
        | Some c => resolve_rec c source
        | None => if missing then match prev with Some p => ROk (prev_latest p) | None => RPanic end else RPanic
        end)
  | _, _ => ROk v
  end.
End Resolve.

(** config_value.rs 93-217; [fuel] bounds the depth of the call stack. *)
Fixpoint resolve (env files : list N -> option (list N)) (fuel : nat) (v : cv) (source : option cv) : rs cv :=
  match fuel with
  | 0 => RDiverge
  | S n => resolve_step env files (resolve env files n) v source
  end.
(** model.rs 77-89 *)
Definition parse_from_string (env files : list N -> option (list N)) (fuel : nat) (text : list N) : rs (option cv) :=
  parse_from_string_with (resolve env files fuel) text.

(** ** Durations: hocon/src/model/config_duration_value.rs 39-53.  [to_u64] is Decimal::to_u64 (oracle).  The result is in
    nanoseconds; the products are u64 and overflow panics (debug) or wraps (release): [wraps]. *)
Section Durations.
Variable to_u64 : D -> option N.
Variable wraps : bool.
Definition u64_mul (a b : N) : rs N :=
  if (a * b <? 2 ^ 64)%N then ROk (a * b)%N else if wraps then ROk ((a * b) mod 2 ^ 64)%N else RPanic.
Definition to_std_duration (d : D) (u : time_unit) : rs (option N) :=
  match to_u64 d with
  | None => ROk None
  | Some x =>
      match u with
      | UNanos => ROk (Some x)
      | UMicros => ROk (Some (x * 1000)%N)
      | UMillis => ROk (Some (x * 1000000)%N)
      | USeconds => ROk (Some (x * 1000000000)%N)
      | UMinutes => rbind (u64_mul x 60) (fun s => ROk (Some (s * 1000000000)%N))
      | UHours => rbind (u64_mul x 60) (fun a => rbind (u64_mul a 60) (fun s => ROk (Some (s * 1000000000)%N)))
      | UDays => rbind (u64_mul x 60) (fun a => rbind (u64_mul a 60) (fun b => rbind (u64_mul b 24) (fun s =>
                   ROk (Some (s * 1000000000)%N))))
      end
  end.
End Durations.
End Hocon.

Arguments CNull {D}. Arguments CBool {D}. Arguments CStr {D}. Arguments CNum {D}. Arguments CDur {D}. Arguments CArr {D}.
Arguments CObj {D}. Arguments CEnum {D}. Arguments CRef {D}. Arguments CIncl {D}. Arguments CLink {D}.
