(** JSON texts (RFC 8259), stated without the parsers: which text spells which value.
    [strict = true] is the RFC; [strict = false] adds what the example parsers accept beyond it: a comma after the last element
    or member, and unescaped control characters in strings. *)
From Verif Require Import Base Text Json.
Set Implicit Arguments.
Local Open Scope string_scope.
Local Open Scope nat_scope.
Local Open Scope list_scope.

Definition ws (s : list N) : Prop := Forall (fun x => In x [32; 9; 13; 10]%N) s.

(** ** Numbers: [ "-" ] int [ "." 1*digit ] [ ("e" / "E") [ "+" / "-" ] 1*digit ] *)
Definition digits1 (s : list N) : Prop := Forall digit s /\ s <> [].
Definition maybe (P : list N -> Prop) (s : list N) : Prop := s = [] \/ P s.
Definition g_int (s : list N) : Prop := s = bs "0" \/ exists x t, s = x :: t /\ (49 <= x <= 57)%N /\ Forall digit t.
Definition g_frac (s : list N) : Prop := exists t, s = bs "." ++ t /\ digits1 t.
Definition g_exp (s : list N) : Prop := exists e sg t, s = e ++ sg ++ t /\ (e = bs "e" \/ e = bs "E") /\
  maybe (fun u => u = bs "+" \/ u = bs "-") sg /\ digits1 t.
Definition g_number (s : list N) : Prop := exists m i f e, s = m ++ i ++ f ++ e /\ maybe (eq (bs "-")) m /\ g_int i /\ maybe g_frac f /\ maybe g_exp e.

(** ** Strings *)
(** An unescaped character, a two-character escape, a \uXXXX escape. *)
Inductive sitem := SRaw (x : N) | SEsc (c : N) | SUni (h : list N).
Definition item_ok (strict : bool) (i : sitem) : Prop :=
  match i with
  | SRaw x => x <> 34%N /\ x <> 92%N /\ (strict = true -> (32 <= x)%N)
  | SEsc c => In c ([34; 92]%N ++ bs "/bfnrt")
  | SUni h => Forall hexdig h /\ length h = 4
  end.
Definition item_text (i : sitem) : list N :=
  match i with SRaw x => [x] | SEsc c => [92%N; c] | SUni h => [92; 117]%N ++ h end.
Definition esc_value (c : N) : N :=
  if (c =? chr "b")%N then 8%N else if (c =? chr "f")%N then 12%N else if (c =? chr "n")%N then 10%N
  else if (c =? chr "r")%N then 13%N else if (c =? chr "t")%N then 9%N else c.
(** The characters denoted: adjacent \u escapes that form a surrogate pair denote one character, other surrogates U+FFFD.
    [enc] writes a character into a string. *)
Fixpoint items_value (enc : N -> list N) (is : list sitem) : list N :=
  match is with
  | [] => []
  | SRaw x :: r => x :: items_value enc r
  | SEsc c :: r => esc_value c :: items_value enc r
  | SUni h :: r =>
      let u := hex_value h in
      if (55296 <=? u)%N && (u <=? 56319)%N then
        match r with
        | SUni h2 :: r2 =>
            let u2 := hex_value h2 in
            if (56320 <=? u2)%N && (u2 <=? 57343)%N
            then enc ((u - 55296) * 1024 + (u2 - 56320) + 65536)%N ++ items_value enc r2
            else enc 65533%N ++ items_value enc r
        | _ => enc 65533%N ++ items_value enc r
        end
      else if (56320 <=? u)%N && (u <=? 57343)%N then enc 65533%N ++ items_value enc r
      else enc u ++ items_value enc r
  end.
(** The bytes of a text must be valid UTF-8. *)
Definition g_string (strict utf8 : bool) (v : list N) (s : list N) : Prop :=
  exists is, Forall (item_ok strict) is /\ s = [34%N] ++ flat_map item_text is ++ [34%N] /\
    v = items_value (if utf8 then utf8_encode else fun c => [c]) is /\
    (utf8 = true -> utf8_valid (flat_map item_text is) = true).

(** ** Values *)
Section Values.
Variable F : Type.
Variable f64_parse : list N -> F + unit.
Variables strict utf8 : bool.
(** After the last element. *)
Definition trailing (s : list N) : Prop := s = [] \/ strict = false /\ exists w, s = bs "," ++ w /\ ws w.

Inductive jval : json F -> list N -> Prop :=
| j_null : jval (JNull F) (bs "null")
| j_true : jval (JBool F true) (bs "true")
| j_false : jval (JBool F false) (bs "false")
| j_num : forall x s, g_number s -> f64_parse s = inl x -> jval (JNum x) s
| j_str : forall v s, g_string strict utf8 v s -> jval (JStr F v) s
| j_arr0 : forall w, ws w -> jval (JArray []) (bs "[" ++ w ++ bs "]")
| j_arr : forall vs s t, jelems vs s -> trailing t -> jval (JArray vs) (bs "[" ++ s ++ t ++ bs "]")
| j_obj0 : forall w, ws w -> jval (JObject []) (bs "{" ++ w ++ bs "}")
| j_obj : forall ms s t, jmembers ms s -> trailing t -> jval (JObject (hm_collect ms)) (bs "{" ++ s ++ t ++ bs "}")
with jelems : list (json F) -> list N -> Prop :=
| je_one : forall v a s b, ws a -> jval v s -> ws b -> jelems [v] (a ++ s ++ b)
| je_more : forall v a s b vs t, ws a -> jval v s -> ws b -> jelems vs t -> jelems (v :: vs) (a ++ s ++ b ++ bs "," ++ t)
with jmembers : list (list N * json F) -> list N -> Prop :=
| jm_one : forall k v a sk b c s d, ws a -> g_string strict utf8 k sk -> ws b -> ws c -> jval v s -> ws d ->
    jmembers [(k, v)] (a ++ sk ++ b ++ bs ":" ++ c ++ s ++ d)
| jm_more : forall k v a sk b c s d ms t, ws a -> g_string strict utf8 k sk -> ws b -> ws c -> jval v s -> ws d ->
    jmembers ms t -> jmembers ((k, v) :: ms) (a ++ sk ++ b ++ bs ":" ++ c ++ s ++ d ++ bs "," ++ t).
(** A document. *)
Definition jdoc (v : json F) (s : list N) : Prop := exists a t b, s = a ++ t ++ b /\ ws a /\ jval v t /\ ws b.
End Values.
Scheme jval_mut := Induction for jval Sort Prop
  with jelems_mut := Induction for jelems Sort Prop
  with jmembers_mut := Induction for jmembers Sort Prop.
Combined Scheme jval_ind3 from jval_mut, jelems_mut, jmembers_mut.
