(** C137: the text that a toys program writes. *)
From Verif Require Import Base Core Comb Closure Text JsonSpec Runs JsonFacts Toys ToysSpec ToysFacts ToysSyntax ToysParse ToysPrint ToysShow PropsI PropsJ PropsK.
From Coq Require Import ZArith Lia.
Set Implicit Arguments.
Local Open Scope string_scope.
Local Open Scope nat_scope.
Local Open Scope list_scope.

(** Values without strings whose integers fit into 64 bits. *)
Fixpoint plain_value (v : value) : Prop :=
  match v with
  | VInt z => (- 2 ^ 63 <= z <= 2 ^ 63 - 1)%Z
  | VBool _ => True
  | VString _ => False
  | VArray vs => fold_right (fun v P => plain_value v /\ P) True vs
  end.
(** The literal of a value. *)
Fixpoint literal (v : value) : expr :=
  match v with VInt z => EInt z | VBool b => EBool b | VString s => EString s | VArray vs => EArray (map literal vs) end.
Lemma value_ind' : forall P : value -> Prop, (forall z, P (VInt z)) -> (forall b, P (VBool b)) -> (forall s, P (VString s)) -> (forall vs, Forall P vs -> P (VArray vs)) -> forall v, P v.
Proof.
  intros P H1 H2 H3 H4. fix IH 1. intros [z|b|s|vs]; [apply H1|apply H2|apply H3|]. apply H4. induction vs as [|v vs IHvs]; constructor; [apply IH|exact IHvs].
Qed.
Lemma literal_inj : forall v v', literal v = literal v' -> v = v'.
Proof.
  induction v as [z|b|s|vs IH] using value_ind'; intros [z'|b'|s'|vs'] E; cbn in E; try congruence. injection E as E. f_equal. revert vs' E. induction IH as [|v vs Hv _ IHv]; intros [|v' vs'] E; cbn in E; try congruence.
  injection E as E1 E2. f_equal; [now apply Hv|now apply IHv].
Qed.
Lemma literal_fits : forall v k, plain_value v -> fits k (literal v).
Proof.
  induction v as [z|b|s|vs IH] using value_ind'; intros k H; cbn in *; try exact I; [exact H|]. induction IH as [|v vs Hv _ IHv]; cbn in *; [exact I|]. destruct H as [H1 H2]. split; [now apply Hv|now apply IHv].
Qed.
Lemma spells_tight : forall ts, spells ts (List.concat ts).
Proof. induction ts as [|t ts IH]; [apply sp_nil|]. cbn. change (List.concat ts) with ([] ++ List.concat ts). apply sp_cons; [constructor|exact IH]. Qed.
Lemma literal_text : forall v, plain_value v -> List.concat (toks (literal v)) = show_value v.
Proof.
  induction v as [z|b|s|vs IH] using value_ind'; intros H; cbn [literal toks show_value List.concat]; [now rewrite app_nil_r..|destruct H|].
  rewrite concat_app. cbn [List.concat]. rewrite app_nil_r. f_equal. f_equal. cbn [plain_value] in H.
  assert (G : Forall (fun v => List.concat (toks (literal v)) = show_value v) vs) by (induction IH as [|v vs Hv _ IHv]; constructor; destruct H; auto). clear IH H.
  destruct G as [|v vs Hv G]; [reflexivity|]. cbn [map commas join_commas]. rewrite concat_app, Hv. f_equal. clear Hv. induction G as [|w ws Hw _ IHw]; [reflexivity|].
  cbn [map flat_map]. rewrite concat_app, IHw. cbn [List.concat]. now rewrite Hw, <- app_assoc.
Qed.

Lemma dec_solid : forall n, Forall (fun x => ~ is_ws x) (show_dec n).
Proof.
  intros n. destruct (show_dec_canonical n) as [H _]. eapply Forall_impl; [|exact H]. intros x [A B] K. cbn in K. lia.
Qed.
Lemma solid_list : forall l, forallb (fun x => negb (existsb (N.eqb x) [32; 9; 13; 10]%N)) l = true -> Forall (fun x => ~ is_ws x) l.
Proof.
  intros l H. rewrite forallb_forall in H. apply Forall_forall. intros x Hx K. specialize (H x Hx). apply negb_true_iff in H. apply not_true_iff_false in H. apply H.
  apply existsb_exists. exists x. split; [exact K|apply N.eqb_refl].
Qed.
Lemma show_solid : forall v, plain_value v -> Forall (fun x => ~ is_ws x) (show_value v).
Proof.
  induction v as [z|b|s|vs IH] using value_ind'; intros H; cbn [show_value].
  - unfold show_int. destruct (z <? 0)%Z; [apply Forall_app; split; [apply solid_list; reflexivity|]|]; apply dec_solid.
  - destruct b; apply solid_list; reflexivity.
  - destruct H.
  - apply Forall_app. split; [apply solid_list; reflexivity|]. apply Forall_app. split; [|apply solid_list; reflexivity].
    cbn [plain_value] in H. assert (G : Forall (fun v => Forall (fun x => ~ is_ws x) (show_value v)) vs) by (induction IH as [|v vs Hv _ IHv]; constructor; destruct H; auto). clear IH H.
    destruct G as [|v vs Hv G]; [constructor|]. cbn [map join_commas]. apply Forall_app. split; [exact Hv|]. clear Hv. induction G as [|w ws Hw _ IHw]; [constructor|]. cbn [map flat_map].
    apply Forall_app. split; [|exact IHw]. apply Forall_app. split; [apply solid_list; reflexivity|exact Hw].
Qed.
Lemma split_line : forall a b r r', Forall (fun x => ~ is_ws x) a -> Forall (fun x => ~ is_ws x) b -> a ++ 10%N :: r = b ++ 10%N :: r' -> a = b /\ r = r'.
Proof.
  assert (W : is_ws 10%N) by (cbn; auto). induction a as [|x a IH]; intros [|y b] r r' Ha Hb E; cbn in E; inv E.
  - now split.
  - now destruct (Forall_inv Hb).
  - now destruct (Forall_inv Ha).
  - match goal with E : a ++ _ = _ |- _ => destruct (IH b r r' (Forall_inv_tail Ha) (Forall_inv_tail Hb) E) as [-> ->] end. now split.
Qed.

(** ** C137 *)
(** A value without strings is written as a literal of the language that stands for it. *)
Theorem C137_reads_back_partial : forall nd v, ascii_class nd -> plain_value v ->
  parse (expression nd) (show_value v) = Success (literal v) (length (show_value v)).
Proof.
  intros nd v H P. destruct (@C88_expression_round_trip nd (literal v) (show_value v) [] H) as (n & E & L & W); [now apply literal_fits|rewrite <- literal_text by exact P; apply spells_tight|exact I|].
  rewrite app_nil_r in E. rewrite E. f_equal. pose proof (show_solid v P) as S. rewrite <- (firstn_skipn n (show_value v)) in S. apply Forall_app in S. destruct S as [_ S].
  assert (Z : skipn n (show_value v) = []). { destruct (skipn n (show_value v)) as [|x l]; [reflexivity|]. now destruct (Forall_inv S (Forall_inv W)). }
  pose proof (skipn_length n (show_value v)) as K. rewrite Z in K. cbn in K. lia.
Qed.
Print Assumptions C137_reads_back_partial.
(** So the output of a program that writes no strings tells the values that were written. *)
Theorem C137_determined_partial : forall vs vs', Forall plain_value vs -> Forall plain_value vs' -> stdout vs = stdout vs' -> vs = vs'.
Proof.
  assert (V : forall v v', plain_value v -> plain_value v' -> show_value v = show_value v' -> v = v').
  { intros v v' P P' E. pose proof (@C137_reads_back_partial nd0 v nd0_ok P) as R. pose proof (@C137_reads_back_partial nd0 v' nd0_ok P') as R'. rewrite E in R. rewrite R in R'. injection R' as R'. now apply literal_inj. }
  induction vs as [|v vs IH]; intros [|v' vs'] P P' E; [reflexivity|exfalso|exfalso|].
  - cbn in E. destruct (show_value v'); discriminate.
  - cbn in E. destruct (show_value v); discriminate.
  - cbn [stdout flat_map] in E. rewrite <- !app_assoc in E. cbn [app] in E. destruct (split_line _ _ (show_solid _ (Forall_inv P)) (show_solid _ (Forall_inv P')) E) as [E1 E2].
    rewrite (V v v' (Forall_inv P) (Forall_inv P') E1). f_equal. apply IH; [exact (Forall_inv_tail P)|exact (Forall_inv_tail P')|exact E2].
Qed.
Print Assumptions C137_determined_partial.
(** With strings it does not: the text 1 is written as the number 1 is, one string can be written as two are, and both by programs. *)
Theorem C137_determined_refuted : exists p q r s t u a b c,
  run_text nd0 true 20 p = Ret a s /\ run_text nd0 true 20 q = Ret b t /\ run_text nd0 true 20 r = Ret c u /\
  out s <> out t /\ stdout (out s) = stdout (out t) /\ length (out u) = 1 /\ stdout (out u) = stdout (out s ++ out s).
Proof.
  exists (bs "fn main() { println(1); }"), (bs "fn main() { println(""1""); }"), (bs "fn main() { println(""1\n1""); }"). do 6 eexists.
  split; [vm_compute; reflexivity|]. split; [vm_compute; reflexivity|]. split; [vm_compute; reflexivity|]. repeat split; vm_compute; congruence.
Qed.
Print Assumptions C137_determined_refuted.
(** From the text of a program to the text it writes: a program that prints an expression writes the numeral of its value and ends the line. *)
Theorem C137_arithmetic : forall nd checked e z s a, ascii_class nd -> fits 4 e -> exact_value e z ->
  spells (top_toks (TFun main_name [] [SPrintln e])) s -> ws a ->
  exists n s' ds, (forall fuel, n <= fuel -> run_text nd checked fuel (a ++ s) = Ret (VInt z) s') /\ canonical ds /\ dec_value ds = Z.abs_N z /\
  stdout (out s') = (if (z <? 0)%Z then bs "-" else []) ++ ds ++ [10%N].
Proof.
  intros nd checked e z s a H F V S Ha. destruct (@C89_arithmetic nd checked e z s a H F V S Ha) as (n & s' & O & R). exists n, s', (show_dec (Z.abs_N z)). split; [exact R|].
  split; [apply show_dec_canonical|]. split; [apply show_dec_value|]. rewrite O. cbn [stdout flat_map show_value]. rewrite app_nil_r. unfold show_int.
  destruct (Z.ltb_spec z 0) as [L|L]; rewrite <- ?app_assoc; cbn [app]; do 2 f_equal; [f_equal|]; lia.
Qed.
Print Assumptions C137_arithmetic.
(** The lines of the fizz buzz of main.rs. *)
Definition fizz_line (z : Z) : list N :=
  (if (z mod 15 =? 0)%Z then bs "FizzBuzz" else if (z mod 3 =? 0)%Z then bs "Fizz" else if (z mod 5 =? 0)%Z then bs "Buzz" else show_int z) ++ [10%N].
Theorem C137_fizz_buzz : forall nd checked a b, ascii_class nd -> i64 a -> i64 b ->
  exists n s' v, (forall fuel, n <= fuel -> run_text nd checked fuel (main_source a b) = Ret v s') /\
  stdout (out s') = bs "----" ++ [10%N] ++ flat_map fizz_line (PropsG.range a b) ++ bs "----" ++ [10%N].
Proof.
  intros nd checked a b H Ha Hb. destruct (@C89_fizz_buzz nd checked a b H Ha Hb) as (n & s' & R & O). exists n, s', (VString (bs "----")). split; [exact R|]. rewrite O.
  assert (G : forall l, stdout (map fizz l) = flat_map fizz_line l).
  { induction l as [|z l IH]; [reflexivity|]. unfold stdout in *. cbn [map flat_map]. rewrite IH. f_equal. unfold fizz_line, fizz.
    assert (Q : (z mod 15 =? 0)%Z = ((z mod 3 =? 0) && (z mod 5 =? 0))%Z).
    { apply eq_true_iff_eq. rewrite andb_true_iff, !Z.eqb_eq. Z.div_mod_to_equations. lia. }
    rewrite Q. destruct (z mod 3 =? 0)%Z, (z mod 5 =? 0)%Z; reflexivity. }
  rewrite <- G. unfold stdout. cbn [flat_map]. rewrite flat_map_app. reflexivity.
Qed.
Print Assumptions C137_fizz_buzz.
Example C137_example :
  plain_value (VArray [VInt (-5); VBool true; VArray []]) /\ show_value (VArray [VInt (-5); VBool true; VArray []]) = bs "[-5,true,[]]" /\
  parse (expression nd0) (bs "[-5,true,[]]") = Success (EArray [EInt (-5); EBool true; EArray []]) 12 /\
  flat_map fizz_line [13; 14; 15; 16; -1]%Z = bs "13" ++ [10%N] ++ bs "14" ++ [10%N] ++ bs "FizzBuzz" ++ [10%N] ++ bs "16" ++ [10%N] ++ bs "-1" ++ [10%N].
Proof. split; [cbn; lia|]. repeat split; vm_compute; reflexivity. Qed.
(** A value is read as an integer, as a boolean or as a string in at most one way, and in none only if it is an array; what it is read as determines
    it, and is what println writes of it. *)
Theorem C137_accessors : forall v,
  length (filter (fun b => b) [match as_int v with Some _ => true | None => false end; match as_bool v with Some _ => true | None => false end; match as_string v with Some _ => true | None => false end])
    = (match v with VArray _ => 0 | _ => 1 end)
  /\ (forall z, as_int v = Some z <-> v = VInt z) /\ (forall b, as_bool v = Some b <-> v = VBool b) /\ (forall s, as_string v = Some s <-> v = VString s)
  /\ (forall s, as_string v = Some s -> stdout [v] = s ++ [10%N]) /\ (forall z, as_int v = Some z -> stdout [v] = show_int z ++ [10%N]) /\ (forall b, as_bool v = Some b -> stdout [v] = bool_text b ++ [10%N]).
Proof.
  intros [z|b|s|vs]; (split; [reflexivity|]); repeat split; intros; cbn in *; try congruence; rewrite app_nil_r; congruence.
Qed.
Print Assumptions C137_accessors.
Example C137_accessor : as_string (VString (bs "Fizz")) = Some (bs "Fizz") /\ as_string (VArray [VString (bs "Fizz")]) = None /\ as_string (VInt 3) = None /\ as_int (VInt 3) = Some 3%Z
  /\ stdout [VString (bs "Fizz")] = bs "Fizz" ++ [10%N].
Proof. repeat split. Qed.
