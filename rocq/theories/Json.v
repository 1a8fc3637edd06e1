(** The example JSON parsers: parser/examples/json_byte.rs (input &[u8]) and parser/examples/json_char.rs (input &[char]).
    [utf8 = true] is the former, [utf8 = false] the latter.  A String is the list of its bytes in the former and the list of its
    chars in the latter (String::from_iter).  f64::from_str is the oracle [f64_parse]. *)
From Verif Require Import Base Core Comb Text.
Set Implicit Arguments.
Local Open Scope string_scope.
Local Open Scope nat_scope.
Local Open Scope list_scope.

Section Json.
Variable F : Type.
Variable f64_parse : list N -> F + unit.
Variable utf8 : bool.

(** json_byte.rs 6-14; json_char.rs 7-15. *)
Inductive json :=
| JNull
| JBool (b : bool)
| JStr (s : list N)
| JNum (x : F)
| JArray (l : list json)
| JObject (m : list (list N * json)).

(** std: char::decode_utf16 with unwrap_or(REPLACEMENT_CHARACTER). *)
Definition high_surrogate (u : N) : bool := in_range 55296 56319 u.
Definition low_surrogate (u : N) : bool := in_range 56320 57343 u.
Fixpoint decode_utf16 (us : list N) : list N :=
  match us with
  | [] => []
  | u :: r =>
      if high_surrogate u then
        match r with
        | u2 :: r2 =>
            if low_surrogate u2 then ((u - 55296) * 1024 + (u2 - 56320) + 65536)%N :: decode_utf16 r2
            else 65533%N :: decode_utf16 r
        | [] => [65533%N]
        end
      else if low_surrogate u then 65533%N :: decode_utf16 r
      else u :: decode_utf16 r
  end.
(** std: String::push(char) in bytes. *)
Definition utf8_encode (c : N) : list N :=
  if (c <? 128)%N then [c]
  else if (c <? 2048)%N then [192 + c / 64; 128 + c mod 64]%N
  else if (c <? 65536)%N then [224 + c / 4096; 128 + (c / 64) mod 64; 128 + c mod 64]%N
  else [240 + c / 262144; 128 + (c / 4096) mod 64; 128 + (c / 64) mod 64; 128 + c mod 64]%N.
(** json_byte.rs 50, json_char.rs 51: collect::<String>() of chars. *)
Definition chars_to_string (cs : list N) : list N := if utf8 then flat_map utf8_encode cs else cs.
(** String::from_utf8 of bytes (json_byte.rs 41) / String::from_iter of chars (json_char.rs 42). *)
Definition run_to_string (s : list N) : list N + unit := if utf8 then from_utf8 s else inl s.

(** seq(b"..") in json_byte.rs 42-73, tag("..") in json_char.rs 43-74. *)
Definition lit (s : list N) : parser N (list N) := if utf8 then p_seqN s else p_tag s.

(** json_byte.rs 16-18; json_char.rs 17-19. *)
Definition space : parser N unit := p_discard (p_many0 (p_elm_of [32; 9; 13; 10]%N)).

(** json_byte.rs 20-26; json_char.rs 21-27. *)
Definition integer : parser N N := p_or (p_skip_right p_elm_digit_1_9_ref (p_many0 p_elm_digit_ref)) (p_elm_ref (chr "0")).
Definition frac : parser N (N * list N) := p_and (p_elm_ref (chr ".")) (p_many1 p_elm_digit_ref).
Definition expo : parser N (N * option N * list N) :=
  p_and (p_and (p_elm_of (bs "eE")) (p_opt (p_elm_of (bs "+-")))) (p_many1 p_elm_digit_ref).
Definition number : parser N F :=
  p_map_res (p_collect (p_and (p_and (p_and (p_opt (p_elm_ref (chr "-"))) integer) (p_opt frac)) (p_opt expo))) f64_parse.

(** json_byte.rs 29-36; json_char.rs 30-37. *)
Definition special_char : parser N N :=
  p_or (p_or (p_or (p_or (p_or (p_or (p_or (p_elm_ref 92) (p_elm_ref 47)) (p_elm_ref 34))
    (p_map (p_elm_ref (chr "b")) (fun _ => 8%N)))
    (p_map (p_elm_ref (chr "f")) (fun _ => 12%N)))
    (p_map (p_elm_ref (chr "n")) (fun _ => 10%N)))
    (p_map (p_elm_ref (chr "r")) (fun _ => 13%N)))
    (p_map (p_elm_ref (chr "t")) (fun _ => 9%N)).
(** json_byte.rs 37; json_char.rs 38. *)
Definition escape_sequence : parser N N := p_skip_left (p_elm_ref 92) special_char.
(** json_byte.rs 38-41; json_char.rs 39-42. *)
Definition char_string : parser N (list N) :=
  p_map_res (p_many1 (p_map (p_or (p_none_ref_of (set_contains [92; 34]%N)) escape_sequence) (fun x => x))) run_to_string.
(** json_byte.rs 42-46; json_char.rs 43-47. *)
Definition utf16_char : parser N N :=
  p_skip_left (lit [92; 117]%N) (p_map_res (p_map_res (p_count p_elm_hex_digit 4) run_to_string) (parse_hex 65535)).
(** json_byte.rs 47-51; json_char.rs 48-52. *)
Definition utf16_string : parser N (list N) := p_map (p_many1 utf16_char) (fun us => chars_to_string (decode_utf16 us)).
(** json_byte.rs 52-54; json_char.rs 53-55. *)
Definition string_p : parser N (list N) :=
  p_map (p_surround (p_elm_ref 34) (p_many0 (p_or char_string utf16_string)) (p_elm_ref 34)) (@List.concat N).

Section Recursion.
(** lazy(value) *)
Variable value : parser N json.
(** json_byte.rs 56-59; json_char.rs 57-60. *)
Definition array : parser N (list json) :=
  if utf8 then
    p_surround (p_and (p_elm_ref (chr "[")) space)
      (p_many0_sep (p_lazy (fun _ => value)) (p_and (p_and space (p_elm_ref (chr ","))) space))
      (p_and space (p_elm_ref (chr "]")))
  else
    p_surround (p_skip_right (p_elm_ref (chr "[")) space)
      (p_many0_sep (p_lazy (fun _ => value)) (p_skip_right (p_skip_left space (p_elm_ref (chr ","))) space))
      (p_skip_left space (p_elm_ref (chr "]"))).
(** json_byte.rs 61-66; json_char.rs 62-67. *)
Definition member : parser N (list N * json) :=
  p_and (p_skip_right (p_skip_right (p_skip_right string_p space) (p_elm_ref (chr ":"))) space) (p_lazy (fun _ => value)).
Definition object : parser N (list (list N * json)) :=
  p_map
    (p_surround (p_and (p_elm_ref (chr "{")) space)
      (p_many0_sep member (p_and (p_and space (p_elm_ref (chr ","))) space))
      (p_and space (p_elm_ref (chr "}"))))
    (@hm_collect json).
(** json_byte.rs 68-77; json_char.rs 69-78. *)
Definition value_step : parser N json :=
  p_skip_right
    (p_or (p_or (p_or (p_or (p_or (p_or
      (p_map (lit (bs "null")) (fun _ => JNull))
      (p_map (lit (bs "true")) (fun _ => JBool true)))
      (p_map (lit (bs "false")) (fun _ => JBool false)))
      (p_map number JNum))
      (p_map string_p JStr))
      (p_map array JArray))
      (p_map object JObject))
    space.
End Recursion.

(** json_byte.rs 57 and 62, json_char.rs 58 and 63: the recursion through lazy; [fuel] bounds its depth. *)
Fixpoint value_fuel (fuel : nat) : parser N json :=
  match fuel with
  | 0 => p_diverge
  | S fuel' => value_step (value_fuel fuel')
  end.
(** json_byte.rs 79-81; json_char.rs 80-82.  Each level of the recursion consumes a bracket, so this depth is enough
    (JsonFacts.v: [json_fuel_enough]). *)
Definition json_fuel (fuel : nat) : parser N json := p_skip_right (p_skip_left space (value_fuel fuel)) p_end.
Definition json_p : parser N json := fun inp off => json_fuel (S (length inp)) inp off.
End Json.
