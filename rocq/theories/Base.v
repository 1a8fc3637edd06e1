(** Lists, slices, ASCII literals.  Nothing here models project code except where a citation is given. *)
From Coq Require Export List NArith ZArith Arith Lia Bool String Ascii.
Export ListNotations.
Set Implicit Arguments.
(* [length] always means the list length, also where [String] is imported *)
Notation length := List.length (only parsing).

(** Elements (u8 and char) are represented by their code, a natural number in binary. *)
Notation elem := N (only parsing).

(** Code of an ASCII character literal such as b'a' or 'a'. *)
Definition chr (a : ascii) : N := N_of_ascii a.

(** Codes of an ASCII string literal such as b"abc" or "abc". *)
Fixpoint bs (s : string) : list N :=
  match s with
  | EmptyString => []
  | String a s' => chr a :: bs s'
  end.

(** Rust slicing [&v[a..b]]: panics (None) unless a <= b <= v.len(). *)
Definition slice {I} (v : list I) (a b : nat) : option (list I) :=
  if (a <=? b) && (b <=? length v) then Some (firstn (b - a) (skipn a v)) else None.

(** Rust slicing [&v[a..]]: panics (None) unless a <= v.len(). *)
Definition slice_from {I} (v : list I) (a : nat) : option (list I) :=
  if a <=? length v then Some (skipn a v) else None.

Lemma slice_from_some : forall I (v : list I) a r,
  slice_from v a = Some r <-> a <= length v /\ r = skipn a v.
Proof.
  intros I v a r. unfold slice_from. destruct (Nat.leb_spec a (length v)); split; intros H0.
  - injection H0 as <-. auto.
  - destruct H0 as [_ ->]. reflexivity.
  - discriminate.
  - lia.
Qed.

Lemma slice_some : forall I (v : list I) a b r,
  slice v a b = Some r <-> a <= b /\ b <= length v /\ r = firstn (b - a) (skipn a v).
Proof.
  intros I v a b r. unfold slice.
  destruct (Nat.leb_spec a b), (Nat.leb_spec b (length v)); cbn; split; intros H1;
    try discriminate; try (destruct H1 as (?&?&?); subst; lia || reflexivity).
  injection H1 as <-. auto.
Qed.

Lemma skipn_skipn' : forall I (l : list I) a b, skipn a (skipn b l) = skipn (b + a) l.
Proof.
  intros I l a b; revert l; induction b as [|b IH]; intros l; cbn; [reflexivity|].
  destruct l as [|x l]; [destruct a; reflexivity|apply IH].
Qed.

Lemma skipn_cons_nth : forall I (l : list I) n x r,
  skipn n l = x :: r -> n < length l /\ nth_error l n = Some x /\ skipn (S n) l = r.
Proof.
  intros I l; induction l as [|y l IH]; intros n x r H.
  - destruct n; discriminate.
  - destruct n as [|n]; cbn in *.
    + injection H as -> ->. repeat split; lia.
    + destruct (IH n x r H) as (H1 & H2 & H3). repeat split; auto; lia.
Qed.

Lemma skipn_nil_iff : forall I (l : list I) n, skipn n l = [] <-> length l <= n.
Proof.
  intros I l n; split; intros H.
  - assert (length (skipn n l) = 0) by (rewrite H; reflexivity).
    rewrite skipn_length in H0. lia.
  - apply skipn_all2; exact H.
Qed.

Lemma firstn_skipn_app : forall I (l : list I) a b,
  firstn a l ++ firstn b (skipn a l) = firstn (a + b) l.
Proof.
  intros I l a; revert l; induction a as [|a IH]; intros l b; cbn; [reflexivity|].
  destruct l as [|x l]; cbn; [now rewrite firstn_nil|]. f_equal. apply IH.
Qed.

(** Independent notion used by specifications: [p] is a prefix of [l]. *)
Definition prefix {I} (p l : list I) : Prop := exists r, l = p ++ r.

Lemma prefix_nil : forall I (l : list I), prefix [] l.
Proof. intros; exists l; reflexivity. Qed.

Lemma prefix_cons : forall I x y (p l : list I), prefix (x :: p) (y :: l) <-> x = y /\ prefix p l.
Proof.
  intros; split.
  - intros [r H]. injection H as -> ->. split; [reflexivity|exists r; reflexivity].
  - intros [-> [r ->]]. exists r. reflexivity.
Qed.

Lemma prefix_firstn : forall I (p l : list I), prefix p l <-> firstn (length p) l = p.
Proof.
  intros I p; induction p as [|x p IH]; intros l.
  - split; intros; [reflexivity|apply prefix_nil].
  - destruct l as [|y l]; cbn.
    + split; [intros [r H]; discriminate|discriminate].
    + rewrite prefix_cons, IH. split; [intros [-> ->]; reflexivity|].
      intros H; injection H as H1 H2. split; [now symmetry|exact H2].
Qed.
