(** Printing HOCON values (the Display impls of hocon/src/model) and reading the print back.
    Numbers are printed by rust_decimal: [show] is an oracle.  HashMap iterates in any order: the print of a value is the [text] of any
    [reorder] of it. *)
From Coq Require Import Permutation.
From Verif Require Import Base Core Comb Closure RepFacts LitFacts Hoare Runs Weak Agree Text Json JsonSpec JsonFacts Hocon HoconFacts HoconParse HoconLookup HoconResolve HoconSpec HoconComplete.
Set Implicit Arguments.
Local Open Scope string_scope.
Local Open Scope nat_scope.
Local Open Scope list_scope.

Section Display.
Variable D : Type.
Variable show : D -> list N.
Notation cv := (cv D).
Notation key := (list N).

(** std [T]::join *)
Fixpoint join (sep : list N) (l : list (list N)) : list N :=
  match l with [] => [] | x :: [] => x | x :: t => x ++ sep ++ join sep t end.
(** config_object_value.rs 11-19: [s] grows line by line *)
Definition obj_line (s line : list N) : list N := (match s with [] => [] | _ => s ++ bs ", " end) ++ line.
(** time_unit.rs 14-27 *)
Definition unit_text (u : time_unit) : list N :=
  match u with UDays => bs "d" | UHours => bs "h" | UMicros => bs "us" | UMillis => bs "ms" | UMinutes => bs "m" | UNanos => bs "ns" | USeconds => bs "s" end.
(** config_value.rs 40-57, config_array_value.rs 8-13, config_object_value.rs 9-22, config_number_value.rs 8-12, config_duration_value.rs 14-18,
    config_include_value.rs 9-13, config_value_link.rs 11-15 *)
Fixpoint text (v : cv) : list N :=
  match v with
  | CNull => bs "null"
  | CBool b => if b then bs "true" else bs "false"
  | CStr s => [34%N] ++ s ++ [34%N]
  | CNum d => show d
  | CDur d u => show d ++ bs " " ++ unit_text u
  | CArr l => bs "[" ++ join (bs ", ") (map text l) ++ bs "]"
  | CObj m => bs "{ " ++ fold_left obj_line (map (fun '(k, v) => k ++ bs " = " ++ text v) m) [] ++ bs " }"
  | CEnum _ l => bs "[" ++ join (bs ", ") (map text l) ++ bs "]"
  | CRef _ p missing => bs "${" ++ (if missing then bs "?" else []) ++ p ++ bs "}"
  | CIncl me file => bs "include " ++ me ++ bs "(" ++ file ++ bs ")"
  | CLink _ v => text v
  end.
(** The orders in which HashMap::iter may visit the entries of the objects of a value. *)
Inductive reorder : cv -> cv -> Prop :=
| re_null : reorder CNull CNull
| re_bool : forall b, reorder (CBool b) (CBool b)
| re_str : forall s, reorder (CStr s) (CStr s)
| re_num : forall d, reorder (CNum d) (CNum d)
| re_dur : forall d u, reorder (CDur d u) (CDur d u)
| re_arr : forall l l', Forall2 reorder l l' -> reorder (CArr l) (CArr l')
| re_obj : forall m m1 m', Permutation m m1 -> Forall2 (fun a b => fst a = fst b /\ reorder (snd a) (snd b)) m1 m' -> reorder (CObj m) (CObj m')
| re_enum : forall p l l', Forall2 reorder l l' -> reorder (CEnum p l) (CEnum p l')
| re_ref : forall o p m, reorder (CRef o p m) (CRef o p m)
| re_incl : forall m f, reorder (CIncl m f) (CIncl m f)
| re_link : forall p v v', reorder v v' -> reorder (CLink p v) (CLink p v').
(** The value that a print shows: the newest value of every chain. *)
Fixpoint newest_of (v : cv) : cv :=
  match v with
  | CArr l => CArr (map newest_of l)
  | CObj m => CObj (map (fun '(k, v) => (k, newest_of v)) m)
  | CEnum _ l => CEnum None (map newest_of l)
  | CRef _ p m => CRef None p m
  | CLink _ v => newest_of v
  | _ => v
  end.
Lemma text_newest : forall v, text (newest_of v) = text v.
Proof.
  intros v. induction v as [|b|s|d|d u|l Hl|m Hm|o l Ho Hl|o path ms Ho|me f|p v Hp Hv] using cv_ind2; try reflexivity; cbn [text newest_of]; trivial.
  - rewrite map_map. do 3 f_equal. now apply map_ext_Forall.
  - rewrite map_map. do 3 f_equal. apply map_ext_Forall. eapply Forall_impl; [|exact Hm]. intros [k x] H. cbn in H |- *. now rewrite H.
  - rewrite map_map. do 3 f_equal. now apply map_ext_Forall.
Qed.

(** ** What is printed legibly *)
Variable dec : list N -> option D.
(** A number that reads back: not negative, and as printed. *)
Definition legible_num (d : D) : Prop := g_unsigned (show d) /\ dec (show d) = Some d.
(** Text without quotes, backslashes, brackets and control characters that does not begin with a space or a comment. *)
Definition legible_str (s : list N) : Prop :=
  s <> [] /\ Forall (fun x => (32 <= x)%N /\ ~ In x ([34; 92]%N ++ bs "[]'")) s /\ utf8_valid s = true /\ solid (s ++ [34%N]).
Inductive scalar : cv -> Prop :=
| sc_null : scalar CNull
| sc_bool : forall b, scalar (CBool b)
| sc_str : forall s, legible_str s -> scalar (CStr s)
| sc_num : forall d, legible_num d -> scalar (CNum d)
| sc_dur : forall d u, legible_num d -> scalar (CDur d u)
| sc_ref : forall p m, g_path p -> scalar (CRef None p m).
(** Objects without arrays; the keys are paths and pairwise different. *)
Inductive flat : cv -> Prop :=
| fl_scalar : forall v, scalar v -> flat v
| fl_obj : forall m, NoDup (map fst m) -> Forall (fun kv => g_path (fst kv) /\ flat (snd kv)) m -> flat (CObj m).
(** Arrays in which no array comes after an object. *)
Inductive rows : cv -> Prop :=
| rw_arr : forall l1 l2, Forall (fun v => scalar v \/ rows v) l1 -> Forall flat l2 -> rows (CArr (l1 ++ l2)).
Definition legible (v : cv) : Prop := rows v \/ (flat v /\ exists m, v = CObj m).

(** ** The print is a document *)
Lemma obj_lines : forall l s, Forall (fun x => x <> []) l -> fold_left obj_line l s = match s, l with [], _ => join (bs ", ") l | _, [] => s | _, _ => s ++ bs ", " ++ join (bs ", ") l end.
Proof.
  intros l. induction l as [|x l IH]; intros s H.
  - now destruct s.
  - inv H. cbn [fold_left]. rewrite IH by assumption. destruct x as [|c x]; [easy|]. unfold obj_line. destruct s as [|b s].
    + cbn [app]. destruct l; [reflexivity|]. reflexivity.
    + cbn [app]. destruct l as [|y l]; cbn [join]; [now rewrite <- !app_assoc|]. cbn [app]. rewrite <- !app_assoc. reflexivity.
Qed.
Definition line (kv : key * cv) : list N := fst kv ++ bs " = " ++ text (snd kv).
Lemma text_obj : forall m, text (CObj m) = bs "{ " ++ join (bs ", ") (map line m) ++ bs " }".
Proof.
  intros m. cbn [text]. do 2 f_equal. rewrite obj_lines.
  - f_equal. apply map_ext. now intros [k v].
  - apply Forall_forall. intros x Hx. apply in_map_iff in Hx. destruct Hx as ([k v] & <- & _). now destruct k.
Qed.

(** Up to the next quote or closing bracket: no other bracket, quote, backslash or end of line. *)
Definition quiet (l : list N) : Prop :=
  exists r f, l = r ++ f /\ Forall (fun x => ~ stop_char x) r /\ match f with [] => True | x :: _ => x = 34%N \/ x = 93%N end.
Lemma quiet_ok : forall l, quiet l -> brace_ok l.
Proof.
  intros l (r & f & -> & Hr & Hf). exists r, [], f. split; [reflexivity|]. split; [exact Hr|]. split.
  - destruct f as [|x f]; [exact I|]. cbn [app]. destruct Hf as [->| ->]; split; try lits; unfold stop_char; cbn; intuition.
  - split; [|split].
    + exists [], []. split; [reflexivity|]. split; [|constructor]. exists [], []. split; [reflexivity|]. split; constructor.
    + destruct f as [|x f]; [exact I|]. destruct Hf as [->| ->]; apply solid_hd; lits.
    + destruct f as [|x f]; [exact I|]. destruct Hf as [->| ->]; lits.
Qed.
Lemma quiet_nil : quiet [].
Proof. exists [], []. repeat split; constructor. Qed.
Lemma quiet_app : forall r l, Forall (fun x => ~ stop_char x) r -> quiet l -> quiet (r ++ l).
Proof.
  intros r l Hr (r' & f & -> & Hr' & Hf). exists (r ++ r'), f. split; [now rewrite app_assoc|]. split; [|exact Hf]. apply Forall_app. now split.
Qed.
Lemma quiet_quote : forall l, quiet (34%N :: l).
Proof. intros l. exists [], (34%N :: l). repeat split; [constructor|now left]. Qed.
Lemma quiet_close : forall l, quiet (93%N :: l).
Proof. intros l. exists [], (93%N :: l). repeat split; [constructor|now right]. Qed.
(** What comes after a value of a print. *)
Definition follow (g f : list N) : Prop :=
  g = [] /\ ((exists t, f = 44%N :: 32%N :: t) \/ (exists t, f = 93%N :: t)) \/ g = [32%N] /\ exists t, f = 125%N :: t.
Lemma lit_quiet : forall s, forallb (fun x => negb (existsb (N.eqb x) (bs "[]" ++ [13; 10; 92; 34; 39]%N))) s = true -> Forall (fun x => ~ stop_char x) s.
Proof.
  intros s H. rewrite forallb_forall in H. apply Forall_forall. intros x Hx C. specialize (H x Hx). apply negb_true_iff in H.
  enough (existsb (N.eqb x) (bs "[]" ++ [13; 10; 92; 34; 39]%N) = true) by congruence. apply existsb_exists. exists x. split; [exact C|]. apply N.eqb_refl.
Qed.
Lemma digits_quiet : forall s, Forall digit s -> Forall (fun x => ~ stop_char x) s.
Proof. intros s. apply Forall_impl. intros x H. unfold digit in H. unfold stop_char. cbn. intuition lia. Qed.
Lemma unsigned_quiet : forall s, g_unsigned s -> Forall (fun x => ~ stop_char x) s.
Proof.
  intros s (i & f & e & -> & Hi & Hf & He & _). rewrite !Forall_app. split; [|split].
  - destruct Hi as [->|(x & ds & -> & Hx & Hd)]; [now apply lit_quiet|]. apply digits_quiet. constructor; [unfold digit; lia|exact Hd].
  - destruct Hf as [->|(ds & -> & Hd)]; [constructor|]. apply Forall_app. split; [now apply lit_quiet|apply digits_quiet, Hd].
  - destruct He as [->|(c & sg & t & -> & Hc & Hs & Ht)]; [constructor|]. rewrite !Forall_app. split; [|split].
    + destruct Hc as [->| ->]; now apply lit_quiet.
    + destruct Hs as [->|[->| ->]]; now apply lit_quiet.
    + apply digits_quiet, Ht.
Qed.
Lemma letters_quiet : forall s, Forall path_letter s -> Forall (fun x => ~ stop_char x) s.
Proof. intros s. apply Forall_impl. intros x H. unfold path_letter, letter in H. unfold stop_char. cbn in *. intuition lia. Qed.
Lemma path_quiet : forall p, g_path p -> Forall (fun x => ~ stop_char x) p.
Proof.
  intros p H. induction H; [now apply letters_quiet|]. rewrite !Forall_app. split; [now apply letters_quiet|]. split; [now apply lit_quiet|assumption].
Qed.
Lemma unit_quiet : forall u, Forall (fun x => ~ stop_char x) (unit_text u).
Proof. intros []; now apply lit_quiet. Qed.
Lemma unit_in : forall u, g_unit (unit_text u) u.
Proof. intros []; unfold g_unit; cbn; intuition. Qed.
Lemma legible_quoted : forall s, legible_str s -> g_quoted s ([34%N] ++ s ++ [34%N]).
Proof.
  intros s (Hne & Hs & Hu & Hb). exists (map SRaw s).
  assert (E : flat_map item_text (map SRaw s) = s) by (clear; induction s as [|x s IH]; [reflexivity|cbn; now rewrite IH]).
  assert (V : items_value utf8_encode (map SRaw s) = s).
  { clear. induction s as [|x s IH]; [reflexivity|]. cbn [map items_value]. now rewrite IH. }
  rewrite E, V. split; [now destruct s|]. split; [|easy].
  apply Forall_map. eapply Forall_impl; [|exact Hs]. intros x [Hx Hn]. cbn in Hn. unfold hitem_ok, item_ok. cbn. intuition.
Qed.
Lemma gap_nil : gap [].
Proof. exists [], []. split; [reflexivity|]. split; [|constructor]. exists [], []. split; [reflexivity|]. split; constructor. Qed.
Lemma gap_ws : forall w, ws w -> gap w.
Proof. intros w H. exists [], w. split; [reflexivity|]. split; [|exact H]. exists [], []. split; [reflexivity|]. split; constructor. Qed.
Lemma ws_space : ws [32%N].
Proof. repeat constructor. Qed.
Lemma scalar_ok : forall v g f, scalar v -> follow g f -> hval dec (text v) g f v.
Proof.
  intros v g f H F. inv H; cbn [text].
  - constructor.
  - destruct b; constructor.
  - apply hv_quoted. now apply legible_quoted.
  - destruct H0 as [Hu Hd]. apply hv_num; trivial.
    + destruct F as [[-> [(t & ->)|(t & ->)]]|[-> (t & ->)]]; cbn; unfold digit; (split; [lia|intuition discriminate]).
    + intros w Hw t E. destruct F as [[_ [(t' & ->)|(t' & ->)]]|[_ (t' & ->)]]; cbn in Hw; repeat destruct Hw as [<-|Hw]; try easy; discriminate E.
  - destruct H0 as [Hu Hd]. apply hv_dur; trivial; [exact ws_space|apply unit_in|].
    destruct F as [[-> [(t & ->)|(t & ->)]]|[-> (t & ->)]]; cbn; unfold letter; lia.
  - change (bs "${" ++ (if m then bs "?" else []) ++ p ++ bs "}") with (bs "${" ++ [] ++ (if m then bs "?" else []) ++ p ++ [] ++ bs "}").
    apply hv_ref; trivial; constructor.
Qed.
Lemma scalar_quiet : forall v l, scalar v -> quiet l -> quiet (text v ++ l).
Proof.
  intros v l H Q. inv H; cbn [text].
  - apply quiet_app; [now apply lit_quiet|exact Q].
  - apply quiet_app; [destruct b; now apply lit_quiet|exact Q].
  - apply quiet_quote.
  - apply quiet_app; [apply unsigned_quiet, H0|exact Q].
  - apply quiet_app; [|exact Q]. rewrite !Forall_app. split; [apply unsigned_quiet, H0|]. split; [now apply lit_quiet|apply unit_quiet].
  - apply quiet_app; [|exact Q]. rewrite !Forall_app. split; [now apply lit_quiet|]. split; [destruct m; now apply lit_quiet|].
    split; [now apply path_quiet|now apply lit_quiet].
Qed.

Definition good (v : cv) : Prop :=
  (forall g f, follow g f -> quiet (g ++ f) -> hval dec (text v) g f v) /\ (forall l, quiet l -> quiet (text v ++ l)).
Lemma line_quiet : forall kv l, g_path (fst kv) -> good (snd kv) -> quiet l -> quiet (line kv ++ l).
Proof.
  intros [k v] l Hk [_ Hv] Q. unfold line. cbn [fst snd] in *. rewrite <- !app_assoc. apply quiet_app; [now apply path_quiet|].
  apply quiet_app; [now apply lit_quiet|]. now apply Hv.
Qed.
Lemma lines_quiet : forall m l, Forall (fun kv => g_path (fst kv) /\ good (snd kv)) m -> quiet l -> quiet (join (bs ", ") (map line m) ++ l).
Proof.
  intros m l H Q. induction H as [|kv m [Hk Hv] Hm IH]; [exact Q|]. destruct m as [|kv2 m].
  - now apply line_quiet.
  - change (join (bs ", ") (map line (kv :: kv2 :: m))) with (line kv ++ bs ", " ++ join (bs ", ") (map line (kv2 :: m))).
    rewrite <- !app_assoc. apply line_quiet; trivial. apply quiet_app; [now apply lit_quiet|exact IH].
Qed.
Lemma line_member : forall kv g f, g_path (fst kv) -> good (snd kv) -> follow g f -> quiet (g ++ f) -> hmember dec (line kv) g f (fst kv) (snd kv).
Proof.
  intros [k v] g f Hk [Hv _] F Q. unfold line. cbn [fst snd] in *. change (bs " = ") with ([32%N] ++ bs "=" ++ [32%N]). rewrite <- !app_assoc.
  apply hk_kv; [left; now split| |now left|apply gap_ws, ws_space|now apply Hv].
  exists [32%N], []. split; [reflexivity|]. split; [exact ws_space|constructor].
Qed.
Lemma lines_members : forall m f, m <> [] -> Forall (fun kv => g_path (fst kv) /\ good (snd kv)) m -> quiet (125%N :: f) ->
  hmembers dec (join (bs ", ") (map line m) ++ [32%N]) (125%N :: f) m.
Proof.
  intros m f Hne H Q. assert (Q' : quiet ([32%N] ++ 125%N :: f)) by (apply quiet_app; [now apply lit_quiet|exact Q]).
  induction H as [|kv m [Hk Hv] Hm IH]; [easy|]. destruct m as [|kv2 m].
  - destruct kv as [k v]. apply hb_one; [apply gap_ws, ws_space|]. apply (@line_member (k, v)); trivial. right. split; [reflexivity|]. now exists f.
  - change (join (bs ", ") (map line (kv :: kv2 :: m))) with (line kv ++ [] ++ bs "," ++ [32%N] ++ join (bs ", ") (map line (kv2 :: m))).
    rewrite <- !app_assoc. destruct kv as [k v]. apply hb_comma; [exact gap_nil|apply gap_ws, ws_space| |now apply IH].
    apply (@line_member (k, v)); trivial.
    + left. split; [reflexivity|]. left. now eexists.
    + apply quiet_app; [constructor|]. apply quiet_app; [now apply lit_quiet|]. apply quiet_app; [now apply lit_quiet|].
      rewrite <- app_assoc. now apply lines_quiet.
Qed.
Lemma obj_ok : forall m g f, NoDup (map fst m) -> Forall (fun kv => g_path (fst kv) /\ good (snd kv)) m -> quiet (g ++ f) ->
  hobj dec (text (CObj m)) g f (CObj m).
Proof.
  intros m g f Hn H Q. rewrite text_obj. destruct m as [|kv m].
  - change (bs "{ " ++ join (bs ", ") (map line []) ++ bs " }") with (bs "{" ++ [32; 32]%N ++ bs "}"). apply ho_nil; [apply gap_ws; repeat constructor|now apply quiet_ok].
  - change (bs "{ ") with (bs "{" ++ [32%N]). change (bs " }") with ([32%N] ++ bs "}"). set (M := kv :: m) in *. rewrite <- !app_assoc. rewrite (app_assoc _ [32%N] (bs "}")).
    apply ho_some; [apply gap_ws, ws_space| |exact Hn|now apply quiet_ok]. change (bs "}" ++ g ++ f) with (125%N :: g ++ f).
    apply lines_members; trivial; [discriminate|]. change (quiet ([125%N] ++ g ++ f)). apply quiet_app; [now apply lit_quiet|exact Q].
Qed.
Lemma obj_quiet : forall m l, Forall (fun kv => g_path (fst kv) /\ good (snd kv)) m -> quiet l -> quiet (text (CObj m) ++ l).
Proof.
  intros m l H Q. rewrite text_obj, <- !app_assoc. apply quiet_app; [now apply lit_quiet|]. apply lines_quiet; trivial. apply quiet_app; [now apply lit_quiet|exact Q].
Qed.
Lemma flat_good : forall v, flat v -> good v.
Proof.
  intros v. induction v as [|b|s|d|d u|l Hl|m Hm|o l Ho Hl|o path ms Ho|me f|p v Hp Hv] using cv_ind2; intros H; inv H;
    try (split; [intros; now apply scalar_ok|intros; now apply scalar_quiet]).
  assert (G : Forall (fun kv => g_path (fst kv) /\ good (snd kv)) m).
    { apply Forall_forall. intros kv Hkv. rewrite Forall_forall in Hm. match goal with H : Forall _ m |- _ => rewrite Forall_forall in H; destruct (H kv Hkv) as [Hk Hf] end.
      split; [exact Hk|]. now apply Hm. }
  split; [intros g f _ Q; apply hv_obj; now apply obj_ok|intros l Q; now apply obj_quiet].
Qed.

(** ** Arrays *)
Lemma elems_flat : forall l f, Forall flat l -> l <> [] -> quiet (join (bs ", ") (map text l) ++ 93%N :: f) /\ helems dec (join (bs ", ") (map text l)) (93%N :: f) l.
Proof.
  intros l f H Hne. induction H as [|v l Hv Hl IH]; [easy|]. apply flat_good in Hv. destruct l as [|v2 l].
  - cbn [map join]. split; [apply Hv, quiet_close|]. rewrite <- (app_nil_r (text v)). apply he_one; [exact gap_nil|]. apply Hv.
    + left. split; [reflexivity|]. right. now exists f.
    + apply quiet_close.
  - destruct IH as [Q E]; [discriminate|]. change (join (bs ", ") (map text (v :: v2 :: l))) with (text v ++ [] ++ bs "," ++ [32%N] ++ join (bs ", ") (map text (v2 :: l))).
    split.
    + rewrite <- !app_assoc. apply Hv. apply quiet_app; [constructor|]. apply quiet_app; [now apply lit_quiet|]. apply quiet_app; [now apply lit_quiet|exact Q].
    + apply he_more; [exact gap_nil|apply gap_ws, ws_space| |exact E]. apply Hv.
      * left. split; [reflexivity|]. left. now eexists.
      * apply quiet_app; [constructor|]. apply quiet_app; [now apply lit_quiet|]. apply quiet_app; [now apply lit_quiet|exact Q].
Qed.
Definition sound (v : cv) : Prop := forall g f, follow g f -> hval dec (text v) g f v.
Lemma elems_rows : forall l1 l2 f, Forall sound l1 -> Forall flat l2 -> l1 ++ l2 <> [] -> helems dec (join (bs ", ") (map text (l1 ++ l2))) (93%N :: f) (l1 ++ l2).
Proof.
  intros l1 l2 f H1 H2 Hne. induction H1 as [|v l Hv Hl IH]; [cbn [app] in *; now apply elems_flat|]. cbn [app]. destruct (l ++ l2) as [|v2 r].
  - cbn [map join]. rewrite <- (app_nil_r (text v)). apply he_one; [exact gap_nil|]. apply Hv. left. split; [reflexivity|]. right. now exists f.
  - change (join (bs ", ") (map text (v :: v2 :: r))) with (text v ++ [] ++ bs "," ++ [32%N] ++ join (bs ", ") (map text (v2 :: r))).
    apply he_more; [exact gap_nil|apply gap_ws, ws_space| |now apply IH]. apply Hv. left. split; [reflexivity|]. left. now eexists.
Qed.
Lemma arr_ok : forall l1 l2 g f, Forall sound l1 -> Forall flat l2 -> harr dec (text (CArr (l1 ++ l2))) g f (CArr (l1 ++ l2)).
Proof.
  intros l1 l2 g f H1 H2. cbn [text]. destruct (l1 ++ l2) as [|v r] eqn:E.
  - change (bs "[" ++ join (bs ", ") (map text []) ++ bs "]") with (bs "[" ++ [] ++ bs "]"). apply ha_nil, gap_nil.
  - change (bs "[" ++ join (bs ", ") (map text (v :: r)) ++ bs "]") with (bs "[" ++ [] ++ join (bs ", ") (map text (v :: r)) ++ bs "]").
    apply ha_some; [exact gap_nil|]. rewrite <- E. change (bs "]" ++ g ++ f) with (93%N :: g ++ f). apply elems_rows; trivial. now rewrite E.
Qed.
Lemma rows_ok : forall v, rows v -> forall g f, harr dec (text v) g f v.
Proof.
  intros v. induction v as [|b|s|d|d u|l Hl|m Hm|o l Ho Hl|o path ms Ho|me f|p v Hp Hv] using cv_ind2; intros H; inv H.
  intros g f. apply arr_ok; [|assumption]. apply Forall_app in Hl. destruct Hl as [Hl _]. apply Forall_forall. intros v Hv g' f' F.
  rewrite Forall_forall in Hl. match goal with H : Forall _ l1 |- _ => rewrite Forall_forall in H; destruct (H v Hv) as [S|R] end.
  - now apply scalar_ok.
  - apply hv_arr. now apply Hl.
Qed.
Theorem text_doc : forall v, legible v -> hdoc dec (text v) v.
Proof.
  intros v [H|[H (m & ->)]].
  - rewrite <- (app_nil_r (text v)). apply (@hd_arr _ dec [] (text v) [] v); [exact gap_nil| |now apply rows_ok]. exists [], []. split; [reflexivity|]. split; constructor.
  - rewrite <- (app_nil_r (text (CObj m))). inv H; [match goal with H : scalar (CObj _) |- _ => inv H end|].
    assert (G : Forall (fun kv => g_path (fst kv) /\ good (snd kv)) m).
    { eapply Forall_impl; [|eassumption]. intros kv [Hk Hf]. split; [exact Hk|now apply flat_good]. }
    apply (@hd_obj _ dec [] (text (CObj m)) [] (CObj m)); [exact gap_nil| |apply obj_ok; trivial; exact quiet_nil|].
    + exists [], []. split; [reflexivity|]. split; constructor.
    + apply quiet_ok, obj_quiet; [exact G|exact quiet_nil].
Qed.

(** ** Any order of the entries *)
Lemma reorder_newest : forall v v', reorder v v' -> reorder (newest_of v) (newest_of v').
Proof.
  intros v. induction v as [|b|s|d|d u|l Hl|m Hm|o l Ho Hl|o path ms Ho|me f|p v Hp Hv] using cv_ind2; intros v' H; inv H; cbn [newest_of];
    try constructor; try (now apply Hv).
  - rewrite Forall_forall in Hl. match goal with H : Forall2 _ _ _ |- _ => induction H; [constructor|] end. cbn [map]. constructor; [apply Hl; [now left|assumption]|].
    apply IHForall2. intros z Hz. apply Hl. now right.
  - eapply re_obj with (m1 := map (fun '(k, v) => (k, newest_of v)) m1); [now apply Permutation_map|].
    assert (G : Forall (fun kv => forall v', reorder (snd kv) v' -> reorder (newest_of (snd kv)) (newest_of v')) m1).
    { apply Forall_forall. rewrite Forall_forall in Hm. intros kv Hkv. apply Hm. eapply Permutation_in; [apply Permutation_sym; eassumption|exact Hkv]. }
    match goal with R : Forall2 _ _ _ |- _ => clear - R G; induction R as [|[k x] [k' x'] a b [E R] _ IH]; [constructor|] end. inv G. cbn in *. constructor; [|now apply IH]. cbn. split; [exact E|now apply H1].
  - rewrite Forall_forall in Hl. match goal with H : Forall2 _ _ _ |- _ => induction H; [constructor|] end. cbn [map]. constructor; [apply Hl; [now left|assumption]|].
    apply IHForall2. intros z Hz. apply Hl. now right.
Qed.
Lemma reorder_scalar : forall v v', reorder v v' -> scalar v -> v' = v.
Proof. intros v v' H S. inv S; now inv H. Qed.
Lemma reorder_keys : forall m1 m' : list (key * cv), Forall2 (fun a b => fst a = fst b /\ reorder (snd a) (snd b)) m1 m' -> map fst m1 = map fst m'.
Proof. intros m1 m' H. induction H as [|a b l l' [E _] _ IH]; [reflexivity|]. cbn. now rewrite E, IH. Qed.
Lemma reorder_flat : forall v v', reorder v v' -> flat v -> flat v'.
Proof.
  intros v. induction v as [|b|s|d|d u|l Hl|m Hm|o l Ho Hl|o path ms Ho|me f|p v Hp Hv] using cv_ind2; intros v' H F; pose proof F as F'; inv F;
    try (match goal with S : scalar _ |- _ => rewrite (reorder_scalar H S); exact F' end).
  inv H. apply fl_obj.
  - match goal with R : Forall2 _ _ _ |- _ => rewrite <- (reorder_keys R) end. eapply Permutation_NoDup; [apply Permutation_map; eassumption|assumption].
  - assert (G : Forall (fun kv => g_path (fst kv) /\ forall v', reorder (snd kv) v' -> flat v') m1).
    { apply Forall_forall. intros kv Hkv. assert (I : In kv m) by (eapply Permutation_in; [apply Permutation_sym; eassumption|exact Hkv]).
      rewrite Forall_forall in Hm. match goal with H : Forall _ m |- _ => rewrite Forall_forall in H; destruct (H kv I) as [Hk Hf] end.
      split; [exact Hk|]. intros v' R. now apply (Hm kv I). }
    match goal with R : Forall2 _ _ _ |- _ => clear - R G; induction R as [|a b l l' [E R] _ IH]; [constructor|] end.
    inv G. constructor; [|now apply IH]. rewrite <- E. split; [apply H1|now apply H1].
Qed.
Lemma reorder_rows : forall v v', reorder v v' -> rows v -> rows v'.
Proof.
  intros v. induction v as [|b|s|d|d u|l Hl|m Hm|o l Ho Hl|o path ms Ho|me f|p v Hp Hv] using cv_ind2; intros v' H F; inv F. inv H.
  match goal with R : Forall2 _ (_ ++ _) _ |- _ => apply Forall2_app_inv_l in R; destruct R as (a & b & R1 & R2 & ->) end. apply Forall_app in Hl. destruct Hl as [Hl _].
  apply rw_arr.
  - clear R2. induction R1; [constructor|]. inv Hl. match goal with H : Forall (fun v => scalar v \/ rows v) (_ :: _) |- _ => inv H end. constructor; [|now apply IHR1].
    match goal with H : scalar _ \/ rows _ |- _ => destruct H as [S|R] end; [left; now rewrite (reorder_scalar H S)|right; auto].
  - clear R1 Hl. induction R2; [constructor|]. match goal with H : Forall flat (_ :: _) |- _ => inv H end. constructor; [|now apply IHR2]. eapply reorder_flat; eassumption.
Qed.
Lemma reorder_legible : forall v v', reorder v v' -> legible v -> legible v'.
Proof.
  intros v v' H [R|[F (m & ->)]]; [left; eapply reorder_rows; eassumption|right]. split; [eapply reorder_flat; eassumption|]. inv H. now eexists.
Qed.
Lemma reorder_noref : forall v v', reorder v v' -> noref v -> noref v'.
Proof.
  intros v. induction v as [|b|s|d|d u|l Hl|m Hm|o l Ho Hl|o path ms Ho|me f|p v Hp Hv] using cv_ind2; intros v' H F; inv F; inv H; try (now constructor).
  - constructor. assert (G : Forall (fun v => forall v', reorder v v' -> noref v') l).
    { apply Forall_forall. intros x Hx x' R. rewrite Forall_forall in Hl. match goal with H : Forall _ l |- _ => rewrite Forall_forall in H; apply (Hl x Hx _ R), (H x Hx) end. }
    match goal with R : Forall2 _ _ _ |- _ => clear - R G; induction R; [constructor|] end. inv G. constructor; auto.
  - constructor. assert (G : Forall (fun kv => forall v', reorder (snd kv) v' -> noref v') m1).
    { apply Forall_forall. intros kv Hkv v' R. assert (I : In kv m) by (eapply Permutation_in; [apply Permutation_sym; eassumption|exact Hkv]).
      rewrite Forall_forall in Hm. match goal with H : Forall _ m |- _ => rewrite Forall_forall in H; apply (Hm kv I _ R), (H kv I) end. }
    match goal with R : Forall2 _ _ _ |- _ => clear - R G; induction R as [|a b l l' [E R] _ IH]; [constructor|] end.
    inv G. constructor; [|now apply IH]. now apply H1.
  - constructor; [assumption|]. now apply Hv.
Qed.
Lemma reorder_root_keys : forall m v', reorder (CObj m) v' -> exists m', v' = CObj m' /\ forall k, In k (map fst m') <-> In k (map fst m).
Proof.
  intros m v' H. inv H. eexists. split; [reflexivity|]. intros k. match goal with R : Forall2 _ _ _ |- _ => rewrite <- (reorder_keys R) end.
  split; intros I; (eapply Permutation_in; [|exact I]); apply Permutation_map; [now apply Permutation_sym|assumption].
Qed.
End Display.
