(** HOCON texts, stated without the parsers: which text spells which value.  This is a part of the HOCON notation
    (https://github.com/lightbend/config/blob/main/HOCON.md): JSON with comments, optional root braces, "=" for ":", no separator
    before a block, new lines for commas, unquoted keys and strings, durations and substitutions.  The side conditions that are not
    part of HOCON are marked with (!): they exclude texts that hocon/src/parsers.rs does not read as HOCON does (see PropsQ.v). *)
From Verif Require Import Base Text Json JsonSpec Hocon.
Set Implicit Arguments.
Local Open Scope string_scope.
Local Open Scope nat_scope.
Local Open Scope list_scope.

(** ** Layout *)
Definition newline (x : N) : Prop := x = 10%N \/ x = 13%N.
(** A comment with the end of its line. *)
Definition comment_line (c : list N) : Prop :=
  exists h t x, c = h ++ t ++ [x] /\ (h = bs "#" \/ h = bs "//") /\ Forall (fun y => ~ newline y) t /\ newline x.
(** White space, then comment lines one directly after the other. *)
Definition block (g : list N) : Prop := exists w cs, g = w ++ List.concat cs /\ ws w /\ Forall comment_line cs.
(** (!) At most one such group of comments, then white space. *)
Definition gap (g : list N) : Prop := exists b w, g = b ++ w /\ block b /\ ws w.

(** ** Scalars *)
(** An unsigned (!) number; an exponent only after a fraction (!). *)
Definition g_unsigned (s : list N) : Prop :=
  exists i f e, s = i ++ f ++ e /\ g_int i /\ maybe g_frac f /\ maybe g_exp e /\ (e <> [] -> f <> []).
(** Texts that begin with no unit of time. *)
Definition no_unit (f : list N) : Prop := forall w, In w [bs "ns"; bs "nano"; bs "us"; bs "s"; bs "m"; bs "h"; bs "d"] -> forall t, f <> w ++ t.
(** (!) only the short names *)
Definition g_unit (s : list N) (u : time_unit) : Prop :=
  In (s, u) [(bs "ns", UNanos); (bs "us", UMicros); (bs "ms", UMillis); (bs "s", USeconds); (bs "m", UMinutes); (bs "h", UHours); (bs "d", UDays)].
(** Text that is neither layout nor a comment. *)
Definition solid (f : list N) : Prop :=
  match f with
  | [] => True
  | x :: t => ~ In x [32; 9; 13; 10]%N /\ x <> 35%N /\ (x = 47%N -> match t with [] => True | y :: _ => y <> 47%N end)
  end.
(** A JSON string (!) that is not empty, contains no bracket or single quote and begins with no layout or comment. *)
Definition hitem_ok (i : sitem) : Prop := item_ok true i /\ match i with SRaw x => ~ In x (bs "[]'") | _ => True end.
Definition g_quoted (v s : list N) : Prop :=
  exists is, is <> [] /\ Forall hitem_ok is /\ s = [34%N] ++ flat_map item_text is ++ [34%N] /\ v = items_value utf8_encode is /\
    utf8_valid (flat_map item_text is) = true /\ solid (flat_map item_text is ++ [34%N]).
(** An unquoted string (!) that does not begin with a digit, a minus sign or one of the words null, true and false. *)
Definition forbidden : list N := [36; 34; 123; 125; 91; 93; 58; 61; 44; 43; 35; 96; 94; 63; 33; 64; 42; 38; 92; 39; 13; 10]%N.
Definition g_bare (s : list N) : Prop :=
  Forall (fun x => ~ In x forbidden) s /\ utf8_valid s = true /\
  (exists x t, s = x :: t /\ ~ In x [32; 9]%N /\ ~ digit x /\ x <> 45%N) /\ (forall t x, s = t ++ [x] -> ~ In x [32; 9]%N) /\
  (forall a b, s <> a ++ bs "//" ++ b) /\ (forall w t, In w [bs "null"; bs "true"; bs "false"] -> s <> w ++ t).
(** A path: components of letters (!), "-" and "_", joined by ".". *)
Definition letter (x : N) : Prop := (65 <= x <= 90 \/ 97 <= x <= 122)%N.
Definition path_letter (x : N) : Prop := letter x \/ In x (bs "-_").
Inductive g_path : list N -> Prop :=
| gp_one : forall c, c <> [] -> Forall path_letter c -> g_path c
| gp_more : forall c p, c <> [] -> Forall path_letter c -> g_path p -> g_path (c ++ bs "." ++ p).
Definition g_key (k s : list N) : Prop := k = s /\ g_path s \/ g_quoted k s.

(** (!) What may follow a brace: up to the next bracket, backslash or quote or the end of the line, and the layout there, the text must not look
    like the key of an array, of an object or of a value. *)
Definition stop_char (x : N) : Prop := In x (bs "[]" ++ [13; 10; 92; 34; 39]%N).
Definition brace_ok (l : list N) : Prop :=
  exists r g f, l = r ++ g ++ f /\ Forall (fun x => ~ stop_char x) r /\ match g ++ f with [] => True | x :: _ => stop_char x /\ x <> 92%N end /\
    gap g /\ solid f /\ match f with [] => True | x :: _ => ~ In x (bs "=:{[") end.

(** ** Values *)
Section Values.
Variable D : Type.
Variable dec : list N -> option D.
Notation cv := (cv D).
Notation key := (list N).

(** [hval s g f v]: [s], followed by the layout [g] and then by [f], spells [v]. *)
Inductive hval : list N -> list N -> list N -> cv -> Prop :=
| hv_null : forall g f, hval (bs "null") g f CNull
| hv_true : forall g f, hval (bs "true") g f (CBool true)
| hv_false : forall g f, hval (bs "false") g f (CBool false)
| hv_num : forall s g f d, g_unsigned s -> dec s = Some d ->
    match g ++ f with [] => True | x :: _ => ~ digit x /\ ~ In x (bs ".eE") end -> no_unit f -> hval s g f (CNum d)
| hv_dur : forall s w t g f d u, g_unsigned s -> dec s = Some d -> ws w -> g_unit t u ->
    match g ++ f with [] => True | x :: _ => ~ letter x end -> hval (s ++ w ++ t) g f (CDur d u)
| hv_quoted : forall v s g f, g_quoted v s -> hval s g f (CStr v)
| hv_bare : forall s g f, g_bare s -> match g ++ f with [] => True | x :: _ => newline x end -> hval s g f (CStr s)
| hv_ref : forall (opt : bool) w1 p w2 g f, ws w1 -> g_path p -> ws w2 ->
    hval (bs "${" ++ w1 ++ (if opt then bs "?" else []) ++ p ++ w2 ++ bs "}") g f (CRef None p opt)
| hv_arr : forall s g f v, harr s g f v -> hval s g f v
| hv_obj : forall s g f v, hobj s g f v -> hval s g f v
with harr : list N -> list N -> list N -> cv -> Prop :=
| ha_nil : forall a g f, gap a -> harr (bs "[" ++ a ++ bs "]") g f (CArr [])
| ha_some : forall a s g f vs, gap a -> helems s (bs "]" ++ g ++ f) vs -> harr (bs "[" ++ a ++ s ++ bs "]") g f (CArr vs)
with hobj : list N -> list N -> list N -> cv -> Prop :=
| ho_nil : forall a g f, gap a -> brace_ok (g ++ f) -> hobj (bs "{" ++ a ++ bs "}") g f (CObj [])
| ho_some : forall a s g f ps, gap a -> hmembers s (bs "}" ++ g ++ f) ps -> NoDup (map fst ps) -> brace_ok (g ++ f) ->
    hobj (bs "{" ++ a ++ s ++ bs "}") g f (CObj ps)
with helems : list N -> list N -> list cv -> Prop :=
| he_one : forall s b f v, gap b -> hval s b f v -> helems (s ++ b) f [v]
| he_trail : forall s b a f v, gap b -> gap a -> hval s b (bs "," ++ a ++ f) v -> helems (s ++ b ++ bs "," ++ a) f [v]
| he_more : forall s b a t f v vs, gap b -> gap a -> hval s b (bs "," ++ a ++ t ++ f) v -> helems t f vs ->
    helems (s ++ b ++ bs "," ++ a ++ t) f (v :: vs)
with hmembers : list N -> list N -> list (key * cv) -> Prop :=
| hb_one : forall m g f k v, gap g -> hmember m g f k v -> hmembers (m ++ g) f [(k, v)]
| hb_trail : forall m g a f k v, gap g -> gap a -> hmember m g (bs "," ++ a ++ f) k v -> hmembers (m ++ g ++ bs "," ++ a) f [(k, v)]
| hb_comma : forall m g a t f k v ps, gap g -> gap a -> hmember m g (bs "," ++ a ++ t ++ f) k v -> hmembers t f ps ->
    hmembers (m ++ g ++ bs "," ++ a ++ t) f ((k, v) :: ps)
| hb_line : forall m g t f k v ps, gap g -> (exists x, In x g /\ newline x) -> hmember m g (t ++ f) k v -> hmembers t f ps ->
    hmembers (m ++ g ++ t) f ((k, v) :: ps)
with hmember : list N -> list N -> list N -> key -> cv -> Prop :=
| hk_kv : forall k kt a c b s g f v, g_key k kt -> block a -> c = bs "=" \/ c = bs ":" -> gap b -> hval s g f v ->
    hmember (kt ++ a ++ c ++ b ++ s) g f k v
| hk_arr : forall k kt a s g f v, g_key k kt -> gap a -> harr s g f v -> hmember (kt ++ a ++ s) g f k v
| hk_obj : forall k kt a s g f v, g_key k kt -> gap a -> hobj s g f v -> hmember (kt ++ a ++ s) g f k v.

(** The members of a root without braces, one per line (!). *)
Inductive hroot : list N -> list (key * cv) -> Prop :=
| hr_one : forall m g k v, block g -> hmember m g [] k v -> hroot (m ++ g) [(k, v)]
| hr_more : forall m g t k v ps, gap g -> (exists x, In x g /\ newline x) -> hmember m g t k v -> hroot t ps -> hroot (m ++ g ++ t) ((k, v) :: ps).

(** A document. *)
Inductive hdoc : list N -> cv -> Prop :=
| hd_root : forall a t ps, gap a -> hroot t ps -> NoDup (map fst ps) -> hdoc (a ++ t) (CObj ps)
| hd_arr : forall a s g v, gap a -> block g -> harr s g [] v -> hdoc (a ++ s ++ g) v
| hd_obj : forall a s g v, gap a -> block g -> hobj s g [] v -> brace_ok (s ++ g) -> hdoc (a ++ s ++ g) v.
End Values.

Scheme hval_mut := Induction for hval Sort Prop
  with harr_mut := Induction for harr Sort Prop
  with hobj_mut := Induction for hobj Sort Prop
  with helems_mut := Induction for helems Sort Prop
  with hmembers_mut := Induction for hmembers Sort Prop
  with hmember_mut := Induction for hmember Sort Prop.
Combined Scheme hocon_ind6 from hval_mut, harr_mut, hobj_mut, helems_mut, hmembers_mut, hmember_mut.
