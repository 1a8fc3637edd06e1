(** The JSON readers of the benchmark: parser/benches/oni_comb_json.rs, over chars ([bytes = false], 17-130) and over bytes
    ([bytes = true], 135-249).  [.cache()] is left out here: the objects with caches (CacheGrammars.v) parse every text as these
    parsers do (C111_bench).  String::from_utf8_lossy is the argument [lossy], f64::from_str the argument [f64_parse]. *)
From Verif Require Import Base Core Comb Text Json.
Set Implicit Arguments.
Local Open Scope string_scope.
Local Open Scope nat_scope.
Local Open Scope list_scope.

Section Bench.
Variable F : Type.
Variable f64_parse : list N -> F + unit.
Variable lossy : list N -> list N.
Variable bytes : bool.

(** oni_comb_json.rs 21-119 and 141-240: elm_ref(c) in the char reader, elm(c) in the byte reader. *)
Definition b_elm (c : N) : parser N N := if bytes then p_elm c else p_elm_ref c.
(** seq(b"..") in the byte reader, tag("..") in the char reader. *)
Definition b_lit (s : list N) : parser N (list N) := lit bytes s.
(** 17-19; 136-138. *)
Definition b_space : parser N unit := space.

(** 142-161. *)
Definition nonzero_byte : parser N N := p_elm_pred (fun b => (49 <=? b)%N && (b <=? 57)%N).
Definition digit_byte : parser N N := p_elm_pred (fun b => (48 <=? b)%N && (b <=? 57)%N).
Definition integer_byte : parser N N := p_or (p_skip_right nonzero_byte (p_many0 digit_byte)) (p_elm (chr "0")).
Definition frac_byte : parser N (N * list N) := p_and (p_elm (chr ".")) (p_many1 digit_byte).
Definition expo_byte : parser N (N * option N * list N) :=
  p_and (p_and (p_elm_of (bs "eE")) (p_opt (p_elm_of (bs "+-")))) (p_many1 digit_byte).
(** oni_comb_json.rs 156-159: both unwraps panic on an error; 141-160. *)
Definition unwrap_number (s : list N) : option F :=
  match from_utf8 s with
  | inl t => match f64_parse t with inl x => Some x | inr _ => None end
  | inr _ => None
  end.
Definition number_byte : parser N F :=
  p_map_panic (p_collect (p_and (p_and (p_and (p_opt (p_elm (chr "-"))) integer_byte) (p_opt frac_byte)) (p_opt expo_byte))) unwrap_number.
(** 21-27, the text of json_char.rs 21-27; 141-161. *)
Definition b_number : parser N F := if bytes then number_byte else number f64_parse.

(** 164-187. *)
Definition escape_byte : parser N N :=
  p_skip_left (p_elm_ref 92)
    (p_or (p_or (p_or (p_or (p_or (p_or (p_or (p_elm 92) (p_elm 47)) (p_elm 34))
      (p_map (p_elm (chr "b")) (fun _ => 8%N)))
      (p_map (p_elm (chr "f")) (fun _ => 12%N)))
      (p_map (p_elm (chr "n")) (fun _ => 10%N)))
      (p_map (p_elm (chr "r")) (fun _ => 13%N)))
      (p_map (p_elm (chr "t")) (fun _ => 9%N))).
Definition regular_byte : parser N N := p_elm_pred (fun b => negb (b =? 92)%N && negb (b =? 34)%N).
Definition string_byte : parser N (list N) :=
  p_map (p_skip_right (p_skip_left (p_elm 34) (p_collect (p_many0 (p_or regular_byte escape_byte)))) (p_elm 34)) lossy.
(** 29-70, the text of json_char.rs 29-55; 163-187. *)
Definition b_string : parser N (list N) := if bytes then string_byte else string_p false.

(** 76, 89; 196, 211. *)
Definition b_sep : parser N N := p_skip_right (p_skip_left b_space (b_elm (chr ","))) b_space.
(** 100-102; 189-191. *)
Definition b_boolean : parser N bool := p_or (p_map (b_lit (bs "true")) (fun _ => true)) (p_map (b_lit (bs "false")) (fun _ => false)).
Section Recursion.
(** lazy(value), lazy(value_bytes) *)
Variable value : parser N (json F).
(** 72-81; 194-203. *)
Definition b_array : parser N (list (json F)) :=
  p_surround (p_skip_right (b_elm (chr "[")) b_space) (p_many0_sep (p_lazy (fun _ => value)) b_sep) (p_skip_left b_space (b_elm (chr "]"))).
(** 83-98; 206-221. *)
Definition b_member : parser N (list N * json F) :=
  p_and (p_skip_right (p_skip_right (p_skip_right b_string b_space) (b_elm (chr ":"))) b_space) (p_lazy (fun _ => value)).
Definition b_object : parser N (list (list N * json F)) :=
  p_map
    (p_surround (p_skip_right (b_elm (chr "{")) b_space) (p_many0_sep b_member b_sep) (p_skip_left b_space (b_elm (chr "}"))))
    (@hm_collect (json F)).
(** 104-114; 224-236. *)
Definition b_value_step : parser N (json F) :=
  p_skip_right
    (p_or (p_or (p_or (p_or (p_or
      (p_map b_string (fun s => JStr F s))
      (p_map b_number (@JNum F)))
      (p_map b_boolean (fun b => JBool F b)))
      (p_map (b_lit (bs "null")) (fun _ => JNull F)))
      (p_map b_array (@JArray F)))
      (p_map b_object (@JObject F)))
    b_space.
End Recursion.
(** oni_comb_json.rs 77, 85, 199 and 208: the recursion through lazy; [fuel] bounds its depth. *)
Fixpoint b_value (fuel : nat) : parser N (json F) :=
  match fuel with
  | 0 => p_diverge
  | S fuel' => b_value_step (b_value fuel')
  end.
(** 116-119; 239-242.  Each level of the recursion consumes a bracket, so this depth is enough (BenchFacts.v: [bench_fuel_enough]). *)
Definition bench_fuel (fuel : nat) : parser N (json F) := p_skip_right (p_skip_left b_space (b_value fuel)) p_end.
Definition bench_p : parser N (json F) := fun inp off => bench_fuel (S (length inp)) inp off.
(** 121-130; 245-249: success().unwrap() panics on a failure; the value is dropped. *)
Definition bench_main (text : list N) : option unit :=
  match parse bench_p text with Success _ _ => Some tt | _ => None end.
End Bench.
