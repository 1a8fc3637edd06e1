(** The texts that hocon/src/parsers.rs reads, stated without the parsers: a loose grammar of HOCON.  [g r] and [s r v] say what a text
    [s] spells when it is followed by [r]; the rest [r] only matters for a comment on the last line of a document. *)
From Verif Require Import Base Text Json JsonSpec Hocon HoconSpec.
Set Implicit Arguments.
Local Open Scope string_scope.
Local Open Scope nat_scope.
Local Open Scope list_scope.

(** ** Layout: white space and comments in any order. *)
Inductive lay : list N -> list N -> Prop :=
| ly_nil : forall r, lay [] r
| ly_ws : forall x g r, In x [32; 9; 13; 10]%N -> lay g r -> lay (x :: g) r
| ly_line : forall c g r, comment_line c -> lay g r -> lay (c ++ g) r
| ly_end : forall h t, (h = bs "#" \/ h = bs "//") -> Forall (fun y => ~ newline y) t -> lay (h ++ t) [].

(** ** Scalars *)
(** A number: the sign is dropped, and an exponent needs a fraction. *)
Definition s_num {D} (dec : list N -> option D) (s : list N) (d : D) : Prop :=
  exists m n, s = m ++ n /\ maybe (eq (bs "-")) m /\ g_unsigned n /\ dec n = Some d.
(** The words for the units of time. *)
Definition s_unit (w : list N) (u : time_unit) : Prop :=
  In (w, u)
    [(bs "ns", UNanos); (bs "nano", UNanos); (bs "nanos", UNanos); (bs "nanosecond", UNanos); (bs "nanoseconds", UNanos);
     (bs "us", UMicros); (bs "micro", UMicros); (bs "micros", UMicros); (bs "microsecond", UMicros); (bs "microseconds", UMicros);
     (bs "ms", UMillis); (bs "milli", UMillis); (bs "millis", UMillis); (bs "millisecond", UMillis); (bs "milliseconds", UMillis);
     (bs "s", USeconds); (bs "second", USeconds); (bs "seconds", USeconds);
     (bs "m", UMinutes); (bs "minute", UMinutes); (bs "minutes", UMinutes);
     (bs "h", UHours); (bs "hour", UHours); (bs "hours", UHours);
     (bs "d", UDays); (bs "day", UDays); (bs "days", UDays)].
(** The inside of a string, or a string without quotes: characters other than brackets, quotes, backslashes and line ends, and the escapes of JSON. *)
Definition s_item (i : sitem) : Prop :=
  match i with SRaw x => ~ stop_char x | SEsc c => In c ([34; 92]%N ++ bs "/bfnrt") | SUni h => Forall hexdig h /\ length h = 4 end.
Definition s_body (s v : list N) : Prop :=
  exists is, is <> [] /\ Forall s_item is /\ s = flat_map item_text is /\ v = items_value utf8_encode is /\ utf8_valid s = true.
(** A string, with the layout around its quotes. *)
Inductive s_str : list N -> list N -> list N -> Prop :=
| ss_bare : forall s r v, s_body s v -> s_str s r v
| ss_quoted : forall q a b s c d r v, (q = 34%N \/ q = 39%N) -> lay a ([q] ++ b ++ s ++ c ++ [q] ++ d ++ r) -> lay b (s ++ c ++ [q] ++ d ++ r) ->
    s_body s v -> lay c ([q] ++ d ++ r) -> lay d r -> s_str (a ++ [q] ++ b ++ s ++ c ++ [q] ++ d) r v.
(** A path, perhaps with a full stop at its end. *)
Definition s_path (s : list N) : Prop := g_path s \/ exists p, s = p ++ bs "." /\ g_path p.
Inductive s_key : list N -> list N -> list N -> Prop :=
| sk_key : forall a s b r k, lay a (s ++ b ++ r) -> (s_path s /\ k = s \/ s_str s (b ++ r) k) -> lay b r -> s_key (a ++ s ++ b) r k.
Inductive s_comma : list N -> list N -> Prop :=
| sc_comma : forall a b r, lay a (bs "," ++ b ++ r) -> lay b r -> s_comma (a ++ bs "," ++ b) r.
Inductive s_ref : list N -> list N -> list N -> bool -> Prop :=
| sr_ref : forall a b (opt : bool) p c d r, lay a (bs "${" ++ b ++ (if opt then bs "?" else []) ++ p ++ c ++ bs "}" ++ d ++ r) ->
    lay b ((if opt then bs "?" else []) ++ p ++ c ++ bs "}" ++ d ++ r) -> s_path p -> lay c (bs "}" ++ d ++ r) -> lay d r ->
    s_ref (a ++ bs "${" ++ b ++ (if opt then bs "?" else []) ++ p ++ c ++ bs "}" ++ d) r p opt.

(** ** Values *)
Section Values.
Variable D : Type.
Variable dec : list N -> option D.
Notation cv := (cv D).
Notation key := (list N).

(** The values given to a key, in order. *)
Definition given (ps : list (key * cv)) (k : key) : list cv := map snd (filter (fun e => if list_eq_dec N.eq_dec (fst e) k then true else false) ps).
(** A braced object chains the values of a key (config_value.rs ConfigValue::push); the root merges them (ConfigValue::merge_with). *)
Definition joined (f : cv -> cv -> cv) (ps m : list (key * cv)) : Prop :=
  NoDup (map fst m) /\ forall k, hm_get m k = match given ps k with [] => None | v :: vs => Some (fold_left f vs v) end.

(** Strings and references one after the other. *)
Inductive s_enum : list N -> list N -> list cv -> Prop :=
| sn_nil : forall r, s_enum [] r []
| sn_str : forall s v t r vs, s_str s (t ++ r) v -> s_enum t r vs -> s_enum (s ++ t) r (CStr v :: vs)
| sn_ref : forall s p (opt : bool) t r vs, s_ref s (t ++ r) p opt -> s_enum t r vs -> s_enum (s ++ t) r (CRef None p opt :: vs).

Inductive s_val : list N -> list N -> cv -> Prop :=
| sv_lay : forall a s b r v, lay a (s ++ b ++ r) -> s_val s (b ++ r) v -> lay b r -> s_val (a ++ s ++ b) r v
| sv_null : forall r, s_val (bs "null") r CNull
| sv_true : forall r, s_val (bs "true") r (CBool true)
| sv_false : forall r, s_val (bs "false") r (CBool false)
| sv_num : forall s r d, s_num dec s d -> s_val s r (CNum d)
| sv_dur : forall s d g w u r, s_num dec s d -> lay g (w ++ r) -> s_unit w u -> s_val (s ++ g ++ w) r (CDur d u)
| sv_str : forall s r v, s_str s r v -> s_val s r (CStr v)
| sv_ref : forall s r p opt, s_ref s r p opt -> s_val s r (CRef None p opt)
| sv_enum : forall s r vs, s_enum s r vs -> vs <> [] -> s_val s r (CEnum None vs)
| sv_block : forall s r v, s_block s r v -> s_val s r v
(** An array or an object. *)
with s_block : list N -> list N -> cv -> Prop :=
| sb_arr : forall a b s c d r vs, lay a (bs "[" ++ b ++ s ++ c ++ bs "]" ++ d ++ r) -> lay b (s ++ c ++ bs "]" ++ d ++ r) ->
    s_elems s (c ++ bs "]" ++ d ++ r) vs -> lay c (bs "]" ++ d ++ r) -> lay d r -> s_block (a ++ bs "[" ++ b ++ s ++ c ++ bs "]" ++ d) r (CArr vs)
| sb_obj : forall a b s c d r ps m, lay a (bs "{" ++ b ++ s ++ c ++ bs "}" ++ d ++ r) -> lay b (s ++ c ++ bs "}" ++ d ++ r) ->
    s_members s (c ++ bs "}" ++ d ++ r) ps -> lay c (bs "}" ++ d ++ r) -> lay d r -> joined (@push D) ps m ->
    s_block (a ++ bs "{" ++ b ++ s ++ c ++ bs "}" ++ d) r (CObj m)
(** Values with commas between them and perhaps one after the last. *)
with s_elems : list N -> list N -> list cv -> Prop :=
| se_nil : forall r, s_elems [] r []
| se_one : forall s r v, s_val s r v -> s_elems s r [v]
| se_trail : forall s c r v, s_val s (c ++ r) v -> s_comma c r -> s_elems (s ++ c) r [v]
| se_more : forall s c t r v vs, s_val s (c ++ t ++ r) v -> s_comma c (t ++ r) -> s_elems t r vs -> vs <> [] -> s_elems (s ++ c ++ t) r (v :: vs)
(** Members with or without commas between them. *)
with s_members : list N -> list N -> list (key * cv) -> Prop :=
| sm_nil : forall r, s_members [] r []
| sm_one : forall s r k v, s_member s r k v -> s_members s r [(k, v)]
| sm_trail : forall s c r k v, s_member s (c ++ r) k v -> s_comma c r -> s_members (s ++ c) r [(k, v)]
| sm_more : forall s c t r k v ps, s_member s (c ++ t ++ r) k v -> c = [] \/ s_comma c (t ++ r) -> s_members t r ps -> ps <> [] ->
    s_members (s ++ c ++ t) r ((k, v) :: ps)
with s_member : list N -> list N -> key -> cv -> Prop :=
| sp_kv : forall kt c s r k v, s_key kt (c ++ s ++ r) k -> c = bs "=" \/ c = bs ":" -> s_val s r v -> s_member (kt ++ c ++ s) r k v
| sp_block : forall kt s r k v, s_key kt (s ++ r) k -> s_block s r v -> s_member (kt ++ s) r k v.

(** The members of a root without braces, with nothing but layout between them. *)
Inductive s_root : list N -> list (key * cv) -> Prop :=
| st_nil : s_root [] []
| st_more : forall s t k v ps, s_member s t k v -> s_root t ps -> s_root (s ++ t) ((k, v) :: ps).
(** Inclusions one directly after the other. *)
Inductive s_includes : list N -> list cv -> Prop :=
| si_nil : s_includes [] []
| si_more : forall m p t vs, m = bs "file" \/ m = bs "url" -> s_path p -> s_includes t vs ->
    s_includes (bs "include " ++ m ++ bs "(" ++ [34%N] ++ p ++ [34%N] ++ bs ")" ++ t) (CIncl m ([34%N] ++ p ++ [34%N]) :: vs).
(** Arrays and objects. *)
Inductive s_blocks : list N -> list cv -> Prop :=
| sl_nil : s_blocks [] []
| sl_more : forall s t v vs, s_block s t v -> s_blocks t vs -> s_blocks (s ++ t) (v :: vs).
(** A document. *)
Inductive s_doc : list N -> list cv -> Prop :=
| sd_root : forall a t ps m, lay a t -> s_root t ps -> ps <> [] -> joined (@merge_with D) ps m -> s_doc (a ++ t) [CObj m]
| sd_includes : forall a t vs, lay a t -> s_includes t vs -> vs <> [] -> s_doc (a ++ t) vs
| sd_blocks : forall a t vs, lay a t -> s_blocks t vs -> s_doc (a ++ t) vs.
End Values.
Scheme s_val_mut := Induction for s_val Sort Prop
  with s_block_mut := Induction for s_block Sort Prop
  with s_elems_mut := Induction for s_elems Sort Prop
  with s_members_mut := Induction for s_members Sort Prop
  with s_member_mut := Induction for s_member Sort Prop.
Combined Scheme s_ind5 from s_val_mut, s_block_mut, s_elems_mut, s_members_mut, s_member_mut.
