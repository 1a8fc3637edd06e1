(** Facts about units, repeated keys and resolution in the hocon model. *)
From Coq Require Import Permutation.
From Verif Require Import Base Core Comb Closure RepFacts LitFacts Hoare Runs Weak Agree Text Json JsonSpec JsonFacts Hocon HoconFacts HoconParse HoconLookup.
Set Implicit Arguments.
Local Open Scope string_scope.
Local Open Scope nat_scope.
Local Open Scope list_scope.

(** ** Time units *)
Definition prefix (w l : list N) : Prop := exists r, l = w ++ r.
(** What the unit parser reads, in order of preference. *)
Definition unit_words : list (list N * time_unit) :=
  [(bs "ns", UNanos); (bs "nano", UNanos); (bs "us", UMicros); (bs "micro", UMicros); (bs "ms", UMillis); (bs "milli", UMillis);
   (bs "s", USeconds); (bs "m", UMinutes); (bs "h", UHours); (bs "d", UDays)].
Lemma rej_seq : forall w l, ~ prefix w l -> rej (p_attempt (p_seqN w)) l false.
Proof. intros w l H. apply seq_not_prefix. intros r E. apply H. now exists r. Qed.
(** Rejection with either status. *)
Definition rejx {A} (p : parser N A) (l : list N) : Prop := forall pre, exists e c, p (pre ++ l) (length pre) = Failure e c.
Lemma rejx_seq : forall w l, ~ prefix w l -> rejx (p_seqN w) l.
Proof.
  intros w l H pre. destruct (rej_seq H pre) as [e E]. unfold p_attempt in E.
  destruct (p_seqN w (pre ++ l) (length pre)) as [v n|e' c'| |] eqn:Es; try discriminate. eauto.
Qed.
Lemma rejx_or : forall A (p q : parser N A) l, rej p l false -> rejx q l -> rejx (p_or p q) l.
Proof. intros A p q l H1 H2 pre. destruct (H1 pre) as [e E], (H2 pre) as (e' & c & E'). unfold p_or. rewrite E. cbn. eauto. Qed.
Lemma rejx_map : forall A B (p : parser N A) (f : A -> B) l, rejx p l -> rejx (p_map p f) l.
Proof. intros A B p f l H pre. destruct (H pre) as (e & c & E). unfold p_map. rewrite E. eauto. Qed.
Lemma rejx_attempt : forall A (p : parser N A) l, rejx p l -> rej (p_attempt p) l false.
Proof. intros A p l H pre. destruct (H pre) as (e & c & E). unfold p_attempt. rewrite E. exists e. destruct c; reflexivity. Qed.
Lemma prefix_longer : forall w t l, ~ prefix w l -> ~ prefix (w ++ t) l.
Proof. intros w t l H [r ->]. apply H. exists (t ++ r). now rewrite app_assoc. Qed.
Lemma rejx_ns : forall l, ~ prefix (bs "ns") l -> ~ prefix (bs "nano") l -> rejx unit_ns l.
Proof.
  intros l H1 H2. unfold unit_ns, unit_of, seq_a. apply rejx_map. repeat (apply rejx_or || apply r_or);
    solve [now apply rej_seq | now apply rej_seq, (@prefix_longer (bs "nano") (bs "s")) | now apply rej_seq, (@prefix_longer (bs "nano") (bs "second")) | now apply rejx_seq, (@prefix_longer (bs "nano") (bs "seconds"))].
Qed.
Lemma rejx_us : forall l, ~ prefix (bs "us") l -> ~ prefix (bs "micro") l -> rejx unit_us l.
Proof.
  intros l H1 H2. unfold unit_us, unit_of, seq_a. apply rejx_map. repeat (apply rejx_or || apply r_or);
    solve [now apply rej_seq | now apply rej_seq, (@prefix_longer (bs "micro") (bs "s")) | now apply rej_seq, (@prefix_longer (bs "micro") (bs "second")) | now apply rejx_seq, (@prefix_longer (bs "micro") (bs "seconds"))].
Qed.
Lemma rejx_ms : forall l, ~ prefix (bs "ms") l -> ~ prefix (bs "milli") l -> rejx unit_ms l.
Proof.
  intros l H1 H2. unfold unit_ms, unit_of, seq_a. apply rejx_map. repeat (apply rejx_or || apply r_or);
    solve [now apply rej_seq | now apply rej_seq, (@prefix_longer (bs "milli") (bs "s")) | now apply rej_seq, (@prefix_longer (bs "milli") (bs "second")) | now apply rejx_seq, (@prefix_longer (bs "milli") (bs "seconds"))].
Qed.
Lemma rejx_s : forall l, ~ prefix (bs "s") l -> rejx unit_s l.
Proof.
  intros l H1. unfold unit_s, unit_of, seq_a. apply rejx_map. repeat (apply rejx_or || apply r_or);
    solve [now apply rej_seq | now apply rej_seq, (@prefix_longer (bs "s") (bs "econd")) | now apply rejx_seq, (@prefix_longer (bs "s") (bs "econds"))].
Qed.
Lemma rejx_m : forall l, ~ prefix (bs "m") l -> rejx unit_m l.
Proof.
  intros l H1. unfold unit_m, unit_of, seq_a. apply rejx_map. repeat (apply rejx_or || apply r_or);
    solve [now apply rej_seq | now apply rej_seq, (@prefix_longer (bs "m") (bs "inute")) | now apply rejx_seq, (@prefix_longer (bs "m") (bs "inutes"))].
Qed.
Lemma rejx_h : forall l, ~ prefix (bs "h") l -> rejx unit_h l.
Proof.
  intros l H1. unfold unit_h, unit_of, seq_a. apply rejx_map. repeat (apply rejx_or || apply r_or);
    solve [now apply rej_seq | now apply rej_seq, (@prefix_longer (bs "h") (bs "our")) | now apply rejx_seq, (@prefix_longer (bs "h") (bs "ours"))].
Qed.
Lemma rejx_d : forall l, ~ prefix (bs "d") l -> rejx unit_d l.
Proof.
  intros l H1. unfold unit_d, unit_of, seq_a. apply rejx_map. repeat (apply rejx_or || apply r_or);
    solve [now apply rej_seq | now apply rej_seq, (@prefix_longer (bs "d") (bs "ay")) | now apply rejx_seq, (@prefix_longer (bs "d") (bs "ays"))].
Qed.
Ltac units_rej := repeat apply r_or; apply rejx_attempt; auto using rejx_ns, rejx_us, rejx_ms, rejx_s, rejx_m, rejx_h.
Ltac unit_read := unfold unit_ns, unit_us, unit_ms, unit_s, unit_m, unit_h, unit_d, unit_of, seq_a; eapply a_map_eq; [|reflexivity];
  first [do 4 apply a_or1; apply a_attempt, a_seqN | do 2 apply a_or1; apply a_attempt, a_seqN
        | do 3 apply a_or1; apply a_or2; [now apply rej_seq|apply a_attempt, a_seqN]].
Ltac next_word before E H := injection E as <- <- E;
  pose proof (H _ _ (or_introl eq_refl)); 
  match type of H with forall w' u', In (w', u') (?x :: before) -> @?Q w' => 
    assert (forall w' u', In (w', u') before -> Q w') by (intros ? ? ?; eapply H; right; eassumption) end; clear H;
  match goal with K : forall w' u', In (w', u') before -> _ |- _ => rename K into H; cbv beta in H end.
(** The unit parser reads the first word of the list that the text begins with ... *)
Lemma acc_units : forall before w u after rest, unit_words = before ++ (w, u) :: after ->
  (forall w' u', In (w', u') before -> ~ prefix w' (w ++ rest)) -> acc time_unit_p w rest u.
Proof.
  intros before w u after rest E H. unfold time_unit_p.
  destruct before as [|[w0 u0] before]; [injection E as <- <- _; do 6 apply a_or1; apply a_attempt; unit_read|next_word before E H].
  destruct before as [|[w0 u0] before]; [injection E as <- <- _; do 6 apply a_or1; apply a_attempt; unit_read|next_word before E H].
  destruct before as [|[w0 u0] before]; [injection E as <- <- _; do 5 apply a_or1; apply a_or2; [now units_rej|apply a_attempt; unit_read]|next_word before E H].
  destruct before as [|[w0 u0] before]; [injection E as <- <- _; do 5 apply a_or1; apply a_or2; [now units_rej|apply a_attempt; unit_read]|next_word before E H].
  destruct before as [|[w0 u0] before]; [injection E as <- <- _; do 4 apply a_or1; apply a_or2; [now units_rej|apply a_attempt; unit_read]|next_word before E H].
  destruct before as [|[w0 u0] before]; [injection E as <- <- _; do 4 apply a_or1; apply a_or2; [now units_rej|apply a_attempt; unit_read]|next_word before E H].
  destruct before as [|[w0 u0] before]; [injection E as <- <- _; do 3 apply a_or1; apply a_or2; [now units_rej|apply a_attempt; unit_read]|next_word before E H].
  destruct before as [|[w0 u0] before]; [injection E as <- <- _; do 2 apply a_or1; apply a_or2; [now units_rej|apply a_attempt; unit_read]|next_word before E H].
  destruct before as [|[w0 u0] before]; [injection E as <- <- _; do 1 apply a_or1; apply a_or2; [now units_rej|apply a_attempt; unit_read]|next_word before E H].
  destruct before as [|[w0 u0] before]; [injection E as <- <- _; apply a_or2; [now units_rej|unit_read]|next_word before E H].
  destruct before; discriminate E.
Qed.
(** ... and fails when there is none. *)
Lemma rejx_units : forall l, (forall w u, In (w, u) unit_words -> ~ prefix w l) -> rejx time_unit_p l.
Proof.
  intros l H. unfold unit_words in H.
  assert (P : Forall (fun wu => ~ prefix (fst wu) l) unit_words) by (apply Forall_forall; intros [w u] Hi; now apply (H w u)).
  unfold unit_words in P. repeat match goal with K : Forall _ (_ :: _) |- _ => inv K end. cbn [fst] in *.
  unfold time_unit_p. apply rejx_or; [now units_rej|now apply rejx_d].
Qed.

Section Resolution.
Variable D : Type.
Variable dec : list N -> option D.
Notation cv := (cv D).
Notation key := (list N).
Notation entries := (list (key * cv)).

(** ** Repeated keys *)
(** The values given to a key, in order. *)
Fixpoint values_of (l : entries) (k : key) : list cv :=
  match l with [] => [] | (k', v) :: t => if list_eq_dec N.eq_dec k k' then v :: values_of t k else values_of t k end.
Lemma fold_values : forall (f : cv -> cv -> cv) (ins : entries -> key * cv -> entries),
  (forall m e, ins m e = match hm_get m (fst e) with Some v => hm_set m (fst e) (f v (snd e)) | None => hm_set m (fst e) (snd e) end) ->
  forall l m k, hm_get (fold_left ins l m) k =
    match hm_get m k, values_of l k with
    | Some v, vs => Some (fold_left f vs v)
    | None, v :: vs => Some (fold_left f vs v)
    | None, [] => None
    end.
Proof.
  intros f ins Hi l. induction l as [|[k' v] l IH]; intros m k; cbn [fold_left values_of].
  - now destruct (hm_get m k).
  - rewrite IH, Hi. cbn [fst snd]. destruct (list_eq_dec N.eq_dec k k') as [<-|Hn].
    + destruct (hm_get m k) as [x|] eqn:E; rewrite hm_get_set; destruct (list_eq_dec N.eq_dec k k); try congruence; reflexivity.
    + destruct (hm_get m k') as [x|] eqn:E; rewrite hm_get_set; destruct (list_eq_dec N.eq_dec k k'); try congruence.
Qed.
Lemma top_fold_get : forall (l : entries) k, hm_get (top_fold l) k = match values_of l k with v :: vs => Some (fold_left (@merge_with D) vs v) | [] => None end.
Proof. intros l k. unfold top_fold. rewrite fold_values with (f := @merge_with D); [reflexivity|]. intros m e. unfold top_insert. now destruct (hm_get m (fst e)). Qed.
Lemma obj_fold_get : forall (l : entries) k, hm_get (obj_fold l) k = match values_of l k with v :: vs => Some (fold_left (@push D) vs v) | [] => None end.
Proof. intros l k. unfold obj_fold. rewrite fold_values with (f := @push D); [reflexivity|]. intros m e. reflexivity. Qed.
Lemma fold_merge_scalar : forall (vs : list cv) v, scalar v -> fold_left (@merge_with D) vs v = v.
Proof. induction vs as [|x vs IH]; intros v H; cbn; [reflexivity|]. rewrite merge_scalar by exact H. now apply IH. Qed.
Lemma fold_push_latest : forall (vs : list cv) v x, plain x -> latest (fold_left (@push D) (vs ++ [x]) v) = x.
Proof. intros vs v x H. rewrite fold_left_app. cbn [fold_left]. now rewrite push_plain. Qed.

Variable env files : list N -> option (list N).
Notation resolve := (resolve dec env files).

Lemma rmap_ext : forall A B (f g : A -> rs B) l, (forall x, In x l -> f x = g x) -> rmap f l = rmap g l.
Proof.
  intros A B f g l H. induction l as [|x l IH]; [reflexivity|]. cbn [rmap]. rewrite (H x) by now left. rewrite IH; [reflexivity|].
  intros y Hy. apply H. now right.
Qed.
Lemma rmap_ok : forall A B (f : A -> B) l, rmap (fun x => ROk (f x)) l = ROk (map f l).
Proof. intros A B f l. induction l as [|x l IH]; [reflexivity|]. cbn [rmap rbind map]. now rewrite IH. Qed.
Lemma rmap_inv : forall A B (f : A -> rs B) l ys, rmap f l = ROk ys -> Forall2 (fun x y => f x = ROk y) l ys.
Proof.
  intros A B f l. induction l as [|x l IH]; intros ys E; cbn [rmap] in E; [inv E; constructor|].
  destruct (f x) as [y| |] eqn:Ef; try discriminate. cbn [rbind] in E. destruct (rmap f l) as [t| |]; try discriminate. cbn [rbind] in E.
  inv E. constructor; auto.
Qed.

(** ** Values without references, includes and enumerations *)
Inductive noref : cv -> Prop :=
| nr_null : noref CNull
| nr_bool : forall b, noref (CBool b)
| nr_str : forall s, noref (CStr s)
| nr_num : forall d, noref (CNum d)
| nr_dur : forall d u, noref (CDur d u)
| nr_arr : forall l, Forall noref l -> noref (CArr l)
| nr_obj : forall m, Forall (fun kv => noref (snd kv)) m -> noref (CObj m)
| nr_link : forall p v, noref p -> noref v -> noref (CLink p v).
Lemma noref_plain : forall v, noref v -> plain v.
Proof. intros v H p path m E. subst v. inv H. Qed.
Definition settles (v : cv) : Prop := forall src, exists n, forall fuel, n <= fuel -> resolve fuel v (Some src) = ROk v.
Lemma settles_all : forall l : list cv, Forall settles l -> forall src, exists n, forall fuel, n <= fuel -> Forall (fun v => resolve fuel v (Some src) = ROk v) l.
Proof.
  intros l H src. induction H as [|v l Hv H IH]; [exists 0; constructor|]. destruct (Hv src) as [n Hn], IH as [m Hm]. exists (n + m).
  intros fuel Hf. constructor; [apply Hn; lia|apply Hm; lia].
Qed.
Lemma rmap_settled : forall (l : list cv) f, Forall (fun v => f v = ROk v) l -> rmap f l = ROk l.
Proof. intros l f H. induction H as [|v l Hv H IH]; [reflexivity|]. cbn [rmap]. rewrite Hv, IH. reflexivity. Qed.
Lemma rmap_settled_map : forall (m : entries) f, Forall (fun v => f v = ROk v) (map snd m) ->
  rmap (fun kv => rbind (f (snd kv)) (fun c => ROk (fst kv, c))) m = ROk m.
Proof.
  intros m f. induction m as [|[k v] m IH]; intros H; [reflexivity|]. cbn in H. inv H. cbn [rmap fst snd]. rewrite H2. cbn [rbind].
  now rewrite IH.
Qed.
Lemma noref_settles : forall v, noref v -> settles v /\ Forall settles (to_vec v).
Proof.
  assert (Triv : forall v, (forall src fuel, 1 <= fuel -> resolve fuel v (Some src) = ROk v) -> settles v) by (intros v H src; exists 1; apply H).
  assert (NL : forall v, (forall p x, v <> CLink p x) -> settles v -> settles v /\ Forall settles (to_vec v)).
  { intros v Hn H. split; [exact H|]. destruct v; try (constructor; [exact H|constructor]). now destruct (Hn v1 v2). }
  intros v. induction v as [|b|s|d|d u|l Hl|m Hm|o l Ho Hl|o path ms Ho|me f|p v Hp Hv] using cv_ind2; intros H; inv H;
    try (apply NL; [discriminate|]; apply Triv; intros src [|fuel] Hf; [lia|reflexivity]).
  - apply NL; [discriminate|]. assert (S : Forall settles l).
    { clear NL Triv. induction Hl as [|x l Hx Hl IH]; [constructor|]. inv H1. constructor; [now apply Hx|now apply IH]. }
    intros src. destruct (settles_all S src) as [n Hn]. exists (Datatypes.S n). intros [|fuel] Hf; [lia|]. cbn [Hocon.resolve resolve_step].
    rewrite rmap_settled; [reflexivity|]. apply Hn. lia.
  - apply NL; [discriminate|]. assert (S : Forall settles (map snd m)).
    { clear NL Triv. induction Hm as [|x l Hx Hl IH]; [constructor|]. inv H1. constructor; [now apply Hx|now apply IH]. }
    intros src. destruct (settles_all S src) as [n Hn]. exists (Datatypes.S n). intros [|fuel] Hf; [lia|]. cbn [Hocon.resolve resolve_step].
    rewrite (@rmap_settled_map m (fun v => resolve fuel v (Some src))); [reflexivity|]. apply Hn. lia.
  - destruct (Hp H2) as [_ S1], (Hv H3) as [S2 _].
    assert (E : to_vec (CLink p v) = to_vec p ++ [v]) by (unfold to_vec; reflexivity).
    assert (S : Forall settles (to_vec (CLink p v))) by (rewrite E; apply Forall_app; split; [exact S1|constructor; [exact S2|constructor]]).
    split; [|exact S]. intros src. destruct (settles_all S src) as [n Hn]. exists (Datatypes.S n). intros [|fuel] Hf; [lia|].
    specialize (Hn fuel ltac:(lia)). cbn [Hocon.resolve resolve_step].
    assert (Pl : Forall (@plain D) (to_vec (CLink p v))).
    { assert (G : forall x, noref x -> Forall noref (to_vec x)).
      { clear. intros x Hx. induction Hx; try (constructor; [now constructor|constructor]).
        change (to_vec (CLink p v)) with (to_vec p ++ [v]). apply Forall_app. split; [assumption|]. constructor; [assumption|constructor]. }
      eapply Forall_impl; [|apply G; now constructor]. exact noref_plain. }
    pose proof (@refold D (CLink p v)) as R. destruct (to_vec (CLink p v)) as [|h t]; [contradiction R; constructor|].
    inv Hn. inv Pl. rewrite H1. cbn [rbind]. rewrite rmap_settled by assumption. cbn [rbind]. now rewrite R.
Qed.

(** *** What resolution leaves behind *)
(** References and enumerations without a previous value, no includes; in a chain only values that [push] keeps. *)
Inductive simple_refs : cv -> Prop :=
| sr_null : simple_refs CNull
| sr_bool : forall b, simple_refs (CBool b)
| sr_str : forall s, simple_refs (CStr s)
| sr_num : forall d, simple_refs (CNum d)
| sr_dur : forall d u, simple_refs (CDur d u)
| sr_arr : forall l, Forall simple_refs l -> simple_refs (CArr l)
| sr_obj : forall m, Forall (fun kv => simple_refs (snd kv)) m -> simple_refs (CObj m)
| sr_enum : forall l, Forall simple_refs l -> simple_refs (CEnum None l)
| sr_ref : forall path missing, simple_refs (CRef None path missing)
| sr_link : forall p v, simple_refs p -> simple_refs v -> simple_refs (CLink p v).
Lemma simple_get : forall n v path x, simple_refs v -> get_value_fuel n v path = ROk (Some x) -> simple_refs x.
Proof.
  induction n as [|n IH]; intros v path x Hv E; [discriminate|]. cbn [get_value_fuel] in E.
  destruct (check_path path); cbn [rbind] in E; try discriminate. destruct (split_dot path) as [k r]. destruct v; try discriminate.
  destruct (hm_get m k) as [c|] eqn:Eg; [|discriminate]. inv Hv. apply get_in in Eg. apply (proj1 (Forall_forall _ _) H0) in Eg. cbn in Eg.
  assert (L : simple_refs (latest c)) by (inv Eg; try (now constructor); assumption).
  destruct r as [next|]; [now apply IH in E|]. now inv E.
Qed.
Lemma noref_fold_push : forall (l : list cv) v, noref v -> Forall noref l -> noref (fold_left (@push D) l v).
Proof.
  induction l as [|x l IH]; intros v Hv Hl; [exact Hv|]. inv Hl. cbn [fold_left]. rewrite push_plain by now apply noref_plain.
  apply IH; [now constructor|assumption].
Qed.
Lemma simple_to_vec : forall v, simple_refs v -> Forall simple_refs (to_vec v).
Proof.
  intros x Hx. induction Hx; try (constructor; [now constructor|constructor]).
  change (to_vec (CLink p v)) with (to_vec p ++ [v]). apply Forall_app. split; [assumption|]. constructor; [assumption|constructor].
Qed.
Lemma resolve_noref : forall fuel v src x, simple_refs v -> simple_refs src -> resolve fuel v (Some src) = ROk x -> noref x.
Proof.
  induction fuel as [|fuel IH]; intros v src x Hv Hs E; [discriminate|]. cbn [Hocon.resolve] in E. 
  assert (L : forall l ys, Forall simple_refs l -> rmap (fun e => resolve fuel e (Some src)) l = ROk ys -> Forall noref ys).
  { intros l ys Hl Er. apply rmap_inv in Er. induction Er as [|a b l ys Hab Er IHr]; [constructor|]. inv Hl. constructor; [|now apply IHr].
    eapply IH with (v := a) (src := src); assumption. }
  destruct Hv; cbn [resolve_step] in E; try (inv E; constructor).
  - destruct (rmap _ l) as [ys| |] eqn:Er; cbn [rbind] in E; try discriminate. inv E. constructor. eapply L; eauto.
  - destruct (rmap _ m) as [ys| |] eqn:Er; cbn [rbind] in E; try discriminate. inv E. constructor. apply rmap_inv in Er.
    induction Er as [|a b m ys Hab Er IHr]; [constructor|]. inv H. constructor; [|now apply IHr].
    destruct (resolve fuel (snd a) (Some src)) as [c| |] eqn:Ec; cbn [rbind] in Hab; try discriminate. inv Hab. cbn. eapply IH with (src := src); eassumption.
  - destruct (rmap _ l) as [ys| |] eqn:Er; cbn [rbind] in E; try discriminate.
    destruct (flat_map _ ys); [discriminate|]. inv E. constructor.
  - destruct (get_value src path) as [o| |] eqn:Eg; cbn [rbind] in E; try discriminate.
    destruct o as [c|].
    + eapply IH; [|exact Hs|exact E]. eapply simple_get; eauto.
    + destruct (env path) as [s|]; [eapply IH; [constructor|exact Hs|exact E]|]. destruct missing; discriminate.
  - pose proof (simple_to_vec (sr_link Hv1 Hv2)) as S. destruct (to_vec (CLink p v)) as [|h t] eqn:Et.
    + unfold to_vec in Et. cbn in Et. destruct (rev (to_vec_rev p)); discriminate.
    + inv S. destruct (resolve fuel h (Some src)) as [h'| |] eqn:Eh; cbn [rbind] in E; try discriminate.
      destruct (rmap _ t) as [t'| |] eqn:Er; cbn [rbind] in E; try discriminate. inv E. apply noref_fold_push; [eapply IH with (src := src); eassumption|eapply L; eassumption].
Qed.

(** ** Dotted keys *)
Lemma split_all_head : forall s, exists ks, split_all s = fst (split_dot s) :: ks.
Proof. intros s. unfold split_all. cbn [split_all_fuel]. destruct (split_dot s) as [a [t|]]; cbn; eauto. Qed.
Lemma split_fuel : forall n m s, length s < n -> length s < m -> split_all_fuel n s = split_all_fuel m s.
Proof.
  induction n as [|n IH]; intros m s Hn Hm; [lia|]. destruct m as [|m]; [lia|]. cbn [split_all_fuel]. destruct (split_dot s) as [a [t|]] eqn:E; [|reflexivity].
  apply split_dot_len in E. subst s. rewrite app_length in *. cbn [List.length] in *. f_equal. apply IH; lia.
Qed.
Lemma split_dotted : forall ks, ks <> [] -> Forall no_dot ks -> split_all (dotted ks) = ks.
Proof.
  induction ks as [|k ks IH]; intros Hne H; [congruence|]. inv H. destruct ks as [|k2 ks].
  - cbn [dotted]. unfold split_all. cbn [split_all_fuel]. now rewrite split_dot_all.
  - change (dotted (k :: k2 :: ks)) with (k ++ 46%N :: dotted (k2 :: ks)). unfold split_all. cbn [split_all_fuel]. rewrite split_dot_app by assumption.
    f_equal. etransitivity; [|exact (IH ltac:(discriminate) H3)]. unfold split_all. apply split_fuel; rewrite ?app_length; cbn [List.length]; lia.
Qed.
Lemma top_insert_get : forall (m : entries) e k, hm_get (top_insert m e) k <> None -> k = fst e \/ hm_get m k <> None.
Proof.
  intros m e k H. unfold top_insert in H. destruct (hm_get m (fst e)); rewrite hm_get_set in H; destruct (list_eq_dec N.eq_dec k (fst e)); auto.
Qed.
Lemma top_insert_has : forall (m : entries) e, hm_get (top_insert m e) (fst e) <> None.
Proof.
  intros m e. unfold top_insert. destruct (hm_get m (fst e)); rewrite hm_get_set; destruct (list_eq_dec N.eq_dec (fst e) (fst e)); congruence.
Qed.
Lemma undot_keys : forall es (m : entries) k, hm_get (fold_left (@undot_entry D) es m) k <> None ->
  hm_get m k <> None \/ exists e ks, In e es /\ fst e = k :: ks.
Proof.
  induction es as [|e es IH]; intros m k H; cbn [fold_left] in H; [now left|]. apply IH in H. destruct H as [H|(e' & ks & Hi & He)].
  - unfold undot_entry in H. destruct (fst e) as [|k0 ks] eqn:Ee; [now left|]. apply top_insert_get in H. cbn in H. destruct H as [->|H]; [|now left].
    right. exists e, ks. split; [now left|exact Ee].
  - right. exists e', ks. split; [now right|exact He].
Qed.
(** The inserted keys stay. *)
Lemma top_insert_keeps : forall (m : entries) e k, hm_get m k <> None -> hm_get (top_insert m e) k <> None.
Proof.
  intros m e k H. unfold top_insert. destruct (hm_get m (fst e)); rewrite hm_get_set; destruct (list_eq_dec N.eq_dec k (fst e)); congruence.
Qed.
Lemma undot_keeps : forall es (m : entries) k, hm_get m k <> None -> hm_get (fold_left (@undot_entry D) es m) k <> None.
Proof.
  induction es as [|e es IH]; intros m k H; [exact H|]. cbn [fold_left]. apply IH. unfold undot_entry. destruct (fst e); [exact H|]. now apply top_insert_keeps.
Qed.
Definition has_dot (k : key) : Prop := In 46%N k.
Lemma dot_in : forall (k : key), set_contains k 46%N = true <-> has_dot k.
Proof. intros k. apply set_contains_in. Qed.
(** Once a key contains a dot, every key without one is lost unless it is the head of a dotted key. *)
Lemma undot_loses : forall n m x, resolve n (CObj m) None = ROk x -> (exists k, In k (keys m) /\ has_dot k) ->
  exists m', x = CObj m' /\ forall k, hm_get m' k <> None <-> exists t, In (k ++ 46%N :: t) (keys m) /\ no_dot k.
Proof.
  intros [|n] m x E (k0 & Hk0 & Hd); [discriminate|]. cbn [Hocon.resolve resolve_step] in E.
  destruct (rmap _ _) as [es| |] eqn:Er; cbn [rbind] in E; try discriminate. apply rmap_inv in Er.
  assert (HD : forall k, has_dot k -> exists t, k = fst (split_dot k) ++ 46%N :: t /\ no_dot (fst (split_dot k))).
  { clear. intros k. unfold has_dot. induction k as [|c k IH]; intros Hi; [contradiction|]. cbn. destruct (N.eqb_spec c 46) as [->|Hn]; [exists k; split; [reflexivity|intros []]|].
    destruct Hi as [Hi|Hi]; [congruence|]. destruct (IH Hi) as (t & E & Hd). destruct (split_dot k) as [a r]. cbn in *. exists t. split; [now f_equal|].
    intros [K|K]; [congruence|now apply Hd]. }
  assert (SP : forall k t, no_dot k -> split_all (k ++ 46%N :: t) = k :: split_all_fuel (length (k ++ 46%N :: t)) t).
  { clear. intros k t Hk. unfold split_all. cbn [split_all_fuel]. now rewrite split_dot_app. }
  (* every visited entry is a dotted key, split *)
  assert (IN : forall e, In e es -> exists k v, In (k, v) m /\ has_dot k /\ fst e = split_all k).
  { clear E. intros e He. assert (Hf : Forall (fun kv => In kv m /\ has_dot (fst kv)) (filter (fun kv => set_contains (fst kv) 46%N) m)).
    { apply Forall_forall. intros kv Hkv. apply filter_In in Hkv. destruct Hkv as [H1 H2]. split; [exact H1|now apply dot_in]. }
    revert Hf He. induction Er as [|a b l ys Hab Er IHr]; intros Hf He; [contradiction|]. inv Hf. destruct He as [<-|He]; [|now apply IHr].
    destruct a as [k v]. cbn in *. destruct (resolve n v None) as [c| |]; cbn in Hab; try discriminate. inv Hab. exists k, v. cbn. tauto. }
  assert (OUT : forall k v, In (k, v) m -> has_dot k -> exists e, In e es /\ fst e = split_all k).
  { clear E. intros k v Hi Hk. assert (Hf : In (k, v) (filter (fun kv => set_contains (fst kv) 46%N) m)) by (apply filter_In; split; [exact Hi|now apply dot_in]).
    revert Hf. induction Er as [|a b l ys Hab Er IHr]; intros Hf; [contradiction|]. destruct Hf as [->|Hf].
    - cbn in Hab. destruct (resolve n v None) as [c| |]; cbn in Hab; try discriminate. inv Hab. eexists. split; [now left|reflexivity].
    - destruct IHr as (e & He & Ee); [|exact Hf|]; [intros e He; apply IN; now right|]. exists e. split; [now right|exact Ee]. }
  assert (G : forall k, hm_get (fold_left (@undot_entry D) es []) k <> None <-> exists e ks, In e es /\ fst e = k :: ks).
  { intros k. split.
    - intros H. apply undot_keys in H. destruct H as [H|H]; [now cbn in H|exact H].
    - intros (e & ks & Hi & He). apply in_split in Hi. destruct Hi as (l1 & l2 & ->). rewrite fold_left_app. cbn [fold_left]. apply undot_keeps.
      unfold undot_entry at 1. rewrite He. apply (@top_insert_has (fold_left (@undot_entry D) l1 []) (k, nest ks (snd e))). }
  destruct (fold_left (@undot_entry D) es []) as [|e0 m'] eqn:Ef.
  - exfalso. unfold keys in Hk0. apply in_map_iff in Hk0. destruct Hk0 as ([k v] & Ek & Hi). cbn in Ek. subst k0. destruct (OUT k v Hi Hd) as (e & He & Ee).
    destruct (HD k Hd) as (t & Ek & Hn). rewrite Ek in Ee. rewrite SP in Ee by exact Hn. destruct (G (fst (split_dot k))) as [_ G2]. apply G2; [eauto|reflexivity].
  - inv E. exists (e0 :: m'). split; [reflexivity|]. intros k. rewrite G. split.
    + intros (e & ks & Hi & He). destruct (IN e Hi) as (k1 & v & Hi1 & Hd1 & He1). destruct (HD k1 Hd1) as (t & Ek & Hn). rewrite He1, Ek, SP in He by exact Hn.
      inv He. exists t. rewrite <- Ek. split; [|exact Hn]. unfold keys. apply in_map_iff. exists (k1, v). auto.
    + intros (t & Hi & Hn). unfold keys in Hi. apply in_map_iff in Hi. destruct Hi as ([k1 v] & Ek & Hi). cbn in Ek. subst k1.
      destruct (OUT _ v Hi) as (e & He & Ee); [unfold has_dot; rewrite in_app_iff; cbn; auto|]. rewrite SP in Ee by exact Hn. eauto.
Qed.
(** Without dotted keys at the top nothing is expanded, at any depth. *)
Lemma undot_nothing : forall n m, (forall k, In k (keys m) -> no_dot k) -> resolve (S n) (CObj m) None = ROk (CObj m).
Proof.
  intros n m H. cbn [Hocon.resolve resolve_step]. replace (filter (fun kv => set_contains (fst kv) 46%N) m) with ([] : entries); [reflexivity|].
  symmetry. induction m as [|[k v] m IH]; [reflexivity|]. cbn [filter fst]. destruct (set_contains k 46%N) eqn:E.
  - apply dot_in in E. exfalso. apply (H k); [now left|exact E].
  - apply IH. intros k' Hk. apply H. now right.
Qed.
(** A single dotted key becomes nested objects. *)
Lemma undot_single : forall n ks v, 2 <= length ks -> Forall no_dot ks -> resolve n v None = ROk v ->
  resolve (S n) (CObj [(dotted ks, v)]) None = ROk (nest ks v).
Proof.
  intros n ks v Hl Hn Hv. destruct ks as [|k [|k2 ks]]; [cbn in Hl; lia|cbn in Hl; lia|]. cbn [Hocon.resolve resolve_step]. cbn [filter fst].
  assert (Hd : has_dot (dotted (k :: k2 :: ks))) by (unfold has_dot; change (dotted (k :: k2 :: ks)) with (k ++ 46%N :: dotted (k2 :: ks)); rewrite in_app_iff; cbn; auto).
  apply dot_in in Hd. rewrite Hd. cbn [rmap fst snd]. rewrite Hv. cbn [rbind]. rewrite split_dotted by (auto; discriminate).
  cbn [fold_left]. unfold undot_entry at 1. cbn [fst snd]. reflexivity.
Qed.
Lemma nest_reaches : forall ks (v : cv), ks <> [] -> (forall p x, v <> CLink p x) -> reaches ks (nest ks v) v.
Proof.
  assert (G : forall k (v : cv), hm_get [(k, v)] k = Some v) by (intros k v; cbn; now destruct (list_eq_dec N.eq_dec k k)).
  induction ks as [|k ks IH]; intros v Hne Hv; [congruence|]. cbn [nest fold_right]. destruct ks as [|k2 ks].
  - apply reach_last with (c := v); [apply G|]. right. auto.
  - apply reach_more with (c := nest (k2 :: ks) v) (x := nest (k2 :: ks) v); [discriminate|apply G| |].
    + right. split; [reflexivity|]. cbn. discriminate.
    + apply IH; [discriminate|exact Hv].
Qed.

(** ** Self-reference *)
Lemma self_ref_diverges : forall k m fuel, component k ->
  resolve fuel (CRef None k m) (Some (CObj [(k, CRef None k m)])) = RDiverge.
Proof.
  intros k m fuel Hk. induction fuel as [|fuel IH]; [reflexivity|]. cbn [Hocon.resolve resolve_step]. unfold get_value. cbn [get_value_fuel].
  assert (C : check_path k = ROk tt) by (pose proof (@check_dotted k [] Hk) as C; now rewrite app_nil_r in C). rewrite C. cbn [rbind].
  rewrite split_dot_all by now apply component_no_dot. cbn [hm_get]. destruct (list_eq_dec N.eq_dec k k); [|congruence]. cbn [rbind latest]. exact IH.
Qed.
(** ** Include *)
Lemma include_missing_panics : forall method file src n, files file = None -> resolve (S n) (CIncl method file) src = RPanic.
Proof. intros method file src n H. cbn [Hocon.resolve resolve_step]. unfold load_from_file_with. rewrite H. reflexivity. Qed.

(** ** Loading values without references *)
Lemma noref_push : forall v c, noref v -> noref c -> noref (push v c).
Proof. intros v c Hv Hc. rewrite push_plain by now apply noref_plain. now constructor. Qed.
Lemma noref_set : forall (m : entries) k v, Forall (fun kv => noref (snd kv)) m -> noref v -> Forall (fun kv => noref (snd kv)) (hm_set m k v).
Proof.
  intros m k v H Hv. induction H as [|[k' x] m Hx H IH]; cbn; [now repeat constructor|].
  destruct (list_eq_dec N.eq_dec k k'); constructor; auto.
Qed.
Lemma noref_get : forall (m : entries) k v, Forall (fun kv => noref (snd kv)) m -> hm_get m k = Some v -> noref v.
Proof. intros m k v H E. apply get_in in E. now apply (proj1 (Forall_forall _ _) H) in E. Qed.
Lemma noref_merge : forall r l, noref r -> noref l -> noref (merge_with l r).
Proof.
  intros r. induction r as [|b|s|d|d u|lr Hlr|m Hm|o lr Ho Hlr|o path ms Ho|me f|p v Hp Hv] using cv_ind2; intros l Hr Hl;
    unfold merge_with;
    try solve [induction Hl as [|b2|s2|d2|d2 u2|l2 L2|m2 M2|p2 v2 P2 IHp V2 IHv] using noref_ind;
      cbn; try (now econstructor; eauto); try (apply noref_push; [now constructor|exact IHv])].
  - induction Hl as [|b2|s2|d2|d2 u2|l2 L2|m2 M2|p2 v2 P2 IHp V2 IHv] using noref_ind; try (now econstructor; eauto).
    + cbn. inv Hr. constructor. apply Forall_app. now split.
    + apply noref_push; [now constructor|exact IHv].
  - induction Hl as [|b2|s2|d2|d2 u2|l2 L2|m2 M2|p2 v2 P2 IHp V2 IHv] using noref_ind; try (now econstructor; eauto).
    + change (noref (merge_with (CObj m2) (CObj m))). rewrite merge_obj. inv Hr. constructor.
      unfold merge_maps. revert m2 M2. induction m as [|[k x] m IH]; intros m2 M2; [exact M2|].
      inversion Hm as [|? ? Hx Hm']; subst. inversion H0 as [|? ? Nx Nm]; subst. cbn [fold_left fst snd] in *. apply IH; [exact Hm'|exact Nm|].
      destruct (hm_get m2 k) as [y|] eqn:E; apply noref_set; try assumption. apply Hx; [assumption|]. now apply (noref_get _ M2 E).
    + apply noref_push; [now constructor|exact IHv].
Qed.
Lemma noref_nest : forall ks v, noref v -> noref (nest ks v).
Proof. induction ks as [|k ks IH]; intros v H; [exact H|]. cbn [nest fold_right]. constructor. constructor; [now apply IH|constructor]. Qed.
Lemma noref_undot : forall es (m : entries), Forall (fun e => noref (snd e)) es -> Forall (fun kv => noref (snd kv)) m ->
  Forall (fun kv => noref (snd kv)) (fold_left (@undot_entry D) es m).
Proof.
  induction es as [|[ks v] es IH]; intros m He Hm; [exact Hm|]. inv He. cbn [fold_left]. apply IH; [assumption|]. unfold undot_entry. cbn [fst snd].
  destruct ks as [|k ks]; [exact Hm|]. unfold top_insert. cbn [fst snd]. pose proof (noref_nest ks H1) as Hn.
  destruct (hm_get m k) as [y|] eqn:E; apply noref_set; try assumption. apply noref_merge; [assumption|]. now apply (noref_get _ Hm E).
Qed.
(** Expansion of the dotted keys of a value without references returns such a value. *)
Definition expands (v : cv) : Prop := exists n x, noref x /\ forall fuel, n <= fuel -> resolve fuel v None = ROk x.
Lemma noref_expands : forall v, noref v -> expands v.
Proof.
  intros v. induction v as [|b|s|d|d u|l Hl|m Hm|o l Ho Hl|o path ms Ho|me f|p v Hp Hv] using cv_ind2; intros H; pose proof H as H'; inv H;
    try solve [eexists 1, _; split; [exact H'|]; intros [|fuel] Hf; [lia|reflexivity]].
  set (g := fun kv : key * cv => set_contains (fst kv) 46%N).
  assert (A : exists n es, Forall (fun e : list key * cv => noref (snd e)) es /\ forall fuel, n <= fuel ->
    rmap (fun kv => rbind (resolve fuel (snd kv) None) (fun c => ROk (split_all (fst kv), c))) (filter g m) = ROk es).
  { clear H'. induction Hm as [|[k v] m Hx Hm IH]; [exists 0, []; split; [constructor|reflexivity]|]. inv H1.
    destruct (IH H3) as (n & es & He & Er). destruct (Hx H2) as (n' & x & Nx & Ex). cbn [filter]. destruct (g (k, v)).
    - exists (n + n'), ((split_all k, x) :: es). split; [now constructor|]. intros fuel Hf. cbn [rmap fst snd] in *. rewrite Ex by lia. cbn [rbind].
      rewrite Er by lia. reflexivity.
    - exists n, es. auto. }
  destruct A as (n & es & He & Er). pose proof (noref_undot He (Forall_nil _)) as U.
  exists (S n), (match fold_left (@undot_entry D) es [] with [] => CObj m | m' => CObj m' end). split.
  - destruct (fold_left (@undot_entry D) es []); [exact H'|now constructor].
  - intros [|fuel] Hf; [lia|]. cbn [Hocon.resolve resolve_step]. fold g. rewrite Er by lia. cbn [rbind]. now destruct (fold_left (@undot_entry D) es []).
Qed.
Lemma noref_loads : forall text vs n, hocon_p dec text 0 = Success vs n -> vs <> [] -> Forall noref vs ->
  exists m x, noref x /\ forall fuel, m <= fuel -> parse_from_string dec env files fuel text = ROk (Some x).
Proof.
  intros text vs n E Hne Hv. destruct vs as [|v vs]; [congruence|]. inv Hv.
  destruct (noref_expands H1) as (n1 & x & Nx & Ex).
  assert (A : exists n2 ys, Forall noref ys /\ forall fuel, n2 <= fuel -> rmap (fun c => resolve fuel c None) vs = ROk ys).
  { clear E Hne. induction H2 as [|y vs Hy H2 IH]; [exists 0, []; split; [constructor|reflexivity]|]. destruct IH as (n2 & ys & Ny & Ey).
    destruct (noref_expands Hy) as (n3 & z & Nz & Ez). exists (n2 + n3), (z :: ys). split; [now constructor|]. intros fuel Hf. cbn [rmap]. rewrite Ez by lia.
    cbn [rbind]. rewrite Ey by lia. reflexivity. }
  destruct A as (n2 & ys & Ny & Ey).
  assert (Nm : noref (fold_left (@merge_with D) ys x)).
  { clear Ex Ey. revert x Nx. induction Ny as [|y ys Hy Ny IH]; intros x Nx; [exact Nx|]. cbn [fold_left]. apply IH. now apply noref_merge. }
  destruct (noref_settles Nm) as [S _]. destruct (S (fold_left (@merge_with D) ys x)) as [n3 E3].
  exists (n1 + n2 + n3), (fold_left (@merge_with D) ys x). split; [exact Nm|]. intros fuel Hf. unfold parse_from_string, parse_from_string_with.
  rewrite E. unfold resolve_stage0. rewrite Ex by lia. cbn [rbind]. rewrite Ey by lia. cbn [rbind]. unfold resolve_stage1. rewrite E3 by lia. reflexivity.
Qed.
End Resolution.
