(** What a URI text is (RFC 3986, appendix A, restricted to the forms the crate documents), stated without the parsers:
    each relation links a value of the model types to the text that spells it. *)
From Verif Require Import Base Text Uri.
Set Implicit Arguments.
Local Open Scope string_scope.
Local Open Scope nat_scope.
Local Open Scope list_scope.

(** ** Characters *)
Definition alpha (x : N) : Prop := (65 <= x <= 90 \/ 97 <= x <= 122)%N.
Definition among (l : list N) (x : N) : Prop := In x l.
Definition c_unreserved (x : N) : Prop := alpha x \/ digit x \/ among (bs "-._~") x.
Definition c_sub_delims (x : N) : Prop := among (bs "!$&'()*+,;=") x.
Definition c_reg (x : N) : Prop := c_unreserved x \/ c_sub_delims x.
Definition c_pchar (x : N) : Prop := c_reg x \/ among (bs ":@") x.
(** The characters of a query key or value: '&' and '=' are separators. *)
Definition c_query (x : N) : Prop :=
  c_unreserved x \/ among (bs "!$'()*+,;") x \/ among (bs ":@") x \/ among (bs "/?") x.
Definition c_fragment (x : N) : Prop := c_pchar x \/ among (bs "/?") x.

(** Texts over a character class in which percent-encoded triplets may occur. *)
Inductive enc (C : N -> Prop) : bytes -> Prop :=
| enc_nil : enc C []
| enc_chr : forall x s, C x -> enc C s -> enc C (x :: s)
| enc_pct : forall a b s, hexdig a -> hexdig b -> enc C s -> enc C (chr "%" :: a :: b :: s).

(** An optional part introduced by a delimiter. *)
Inductive g_opt {A} (G : A -> bytes -> Prop) : option A -> bytes -> Prop :=
| go_none : g_opt G None []
| go_some : forall a s, G a s -> g_opt G (Some a) s.

Definition g_scheme (v : bytes) (s : bytes) : Prop :=
  v = s /\ exists x t, s = x :: t /\ alpha x /\ Forall (fun c => alpha c \/ digit c \/ among (bs "+-.") c) t.

Inductive g_user : user_info -> bytes -> Prop :=
| gu_name : forall n, enc c_reg n -> g_user (mk_user n None) n
| gu_pass : forall n p, enc c_reg n -> enc c_reg p -> p <> [] -> g_user (mk_user n (Some p)) (n ++ bs ":" ++ p).

(** A decimal number with no superfluous zero, at most 255. *)
Definition octet (v : N) (s : bytes) : Prop := canonical s /\ dec_value s = v /\ (v <= 255)%N.
Inductive g_ipv4 : ipv4 -> bytes -> Prop :=
| g4 : forall a b c d sa sb sc sd, octet a sa -> octet b sb -> octet c sc -> octet d sd ->
    g_ipv4 (a, b, c, d) (sa ++ bs "." ++ sb ++ bs "." ++ sc ++ bs "." ++ sd).

(** IPv6 (RFC 4291, section 2.2).  [groups gs s]: the 16-bit groups gs written in hexadecimal, each followed by ':'. *)
Definition group (v : N) (s : bytes) : Prop := Forall hexdig s /\ 1 <= length s <= 4 /\ hex_value s = v.
Inductive groups_colon : list N -> bytes -> Prop :=
| gc_nil : groups_colon [] []
| gc_cons : forall v s vs t, group v s -> groups_colon vs t -> groups_colon (v :: vs) (s ++ bs ":" ++ t).
(** The last 32 bits: two groups or an IPv4 address. *)
Inductive last32 : list N -> bytes -> Prop :=
| l32_groups : forall a b s t, group a s -> group b t -> last32 [a; b] (s ++ bs ":" ++ t)
| l32_ipv4 : forall a b c d s, g_ipv4 (a, b, c, d) s -> last32 [a * 256 + b; c * 256 + d]%N s.
(** A sequence of groups separated by ':', possibly empty; in tail position the last two may be an IPv4 address. *)
Inductive left_part : list N -> bytes -> Prop :=
| lp_nil : left_part [] []
| lp_cons : forall vs t v s, groups_colon vs t -> group v s -> left_part (vs ++ [v]) (t ++ s).
Inductive right_part : list N -> bytes -> Prop :=
| rp_left : forall vs t, left_part vs t -> right_part vs t
| rp_last : forall vs t us s, groups_colon vs t -> last32 us s -> right_part (vs ++ us) (t ++ s).
(** Eight groups, or fewer with one run of zero groups written '::'. *)
Inductive ipv6_text : ipv6 -> bytes -> Prop :=
| t6_full : forall vs s, right_part vs s -> length vs = 8 -> ipv6_text vs s
| t6_short : forall ls s rs t, left_part ls s -> right_part rs t -> length ls + length rs <= 7 ->
    ipv6_text (ls ++ repeat 0%N (8 - length ls - length rs) ++ rs) (s ++ bs "::" ++ t).

Section V6.
(** The spelling of IPv6 addresses: [ipv6_text], or anything where it does not matter. *)
Variable V6 : ipv6 -> bytes -> Prop.

Inductive g_host : host_name -> bytes -> Prop :=
| gh_reg : forall s, enc c_reg s -> s <> [] -> g_host (RegName s) s
| gh_v4 : forall a s, g_ipv4 a s -> g_host (Ipv4Address a) s
| gh_v6 : forall a s, V6 a s -> g_host (IpLiteral (Ipv6Address a)) (bs "[" ++ s ++ bs "]")
| gh_future : forall h s, Forall hexdig h -> h <> [] ->
    Forall (fun c => c_reg c \/ c = chr ":") s -> s <> [] ->
    g_host (IpLiteral (IpvFuture (bs "v" ++ h ++ bs "." ++ s))) (bs "[" ++ (bs "v" ++ h ++ bs "." ++ s) ++ bs "]").

Definition g_port (n : N) (s : bytes) : Prop := Forall digit s /\ s <> [] /\ dec_value s = n /\ (n <= 65535)%N.

Inductive g_authority : authority -> bytes -> Prop :=
| ga : forall u su h sh p sp,
    g_opt (fun u s => exists t, g_user u t /\ s = t ++ bs "@") u su -> g_host h sh ->
    g_opt (fun n s => exists t, g_port n t /\ s = bs ":" ++ t) p sp ->
    g_authority (mk_authority h p u) (su ++ sh ++ sp).

Definition g_seg (s : bytes) : Prop := exists t, s = bs "/" ++ t /\ enc c_pchar t.
Inductive g_path : path -> bytes -> Prop :=
| gp_abempty : forall l, Forall g_seg l -> g_path (AbemptyPath l) (List.concat l)
| gp_rootless : forall s l, enc c_pchar s -> s <> [] -> Forall g_seg l -> g_path (RootlessPath (s :: l)) (s ++ List.concat l).

Inductive g_hier : hier_part -> bytes -> Prop :=
| ghp_auth : forall a s l, g_authority a s -> Forall g_seg l ->
    g_hier (mk_hier (Some a) (AbemptyPath l)) (bs "//" ++ s ++ List.concat l)
| ghp_path : forall p s, g_path p s -> s <> [] -> g_hier (mk_hier None p) s.

Inductive g_param : bytes * option bytes -> bytes -> Prop :=
| gq_key : forall k, enc c_query k -> g_param (k, None) k
| gq_kv : forall k v, enc c_query k -> enc c_query v -> g_param (k, Some v) (k ++ bs "=" ++ v).
Inductive g_params : query -> bytes -> Prop :=
| gq_one : forall kv s, g_param kv s -> g_params [kv] s
| gq_more : forall kv s q t, g_param kv s -> g_params q t -> g_params (kv :: q) (s ++ bs "&" ++ t).

Definition g_fragment (v : bytes) (s : bytes) : Prop := v = s /\ enc c_fragment s.

(** scheme ":" hier-part [ "?" query ] [ "#" fragment ]; the crate also accepts a missing scheme. *)
Inductive g_uri : uri -> bytes -> Prop :=
| gur : forall c sc h sh q sq f sf,
    g_opt g_scheme c sc -> g_opt g_hier h sh ->
    g_opt (fun q s => exists t, g_params q t /\ s = bs "?" ++ t) q sq ->
    g_opt (fun f s => exists t, g_fragment f t /\ s = bs "#" ++ t) f sf ->
    g_uri (mk_uri c h q f) (sc ++ bs ":" ++ sh ++ sq ++ sf).
End V6.
