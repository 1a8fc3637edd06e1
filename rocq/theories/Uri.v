(** The uri crate (/repo/uri/src): models and parsers.  Texts are u8 slices; a String is its bytes.
    [.name(..)], [.collect()], [.opt()], [.attempt()] are kept as in the source. *)
From Verif Require Import Base Core Comb Text.
Set Implicit Arguments.
Local Open Scope string_scope.
Local Open Scope nat_scope.
Local Open Scope list_scope.

Notation bytes := (list N).

(** ** Models (uri/src/models) *)
(** user_info.rs 3-7. *)
Record user_info := mk_user { ui_name : bytes; ui_password : option bytes }.
(** host_name.rs 4-15; Ipv4Addr is its four octets, Ipv6Addr its eight 16-bit groups. *)
Definition ipv4 : Type := (N * N * N * N)%type.
Definition ipv6 : Type := list N.
Inductive ip_literal := Ipv6Address (a : ipv6) | IpvFuture (s : bytes).
Inductive host_name := RegName (s : bytes) | Ipv4Address (a : ipv4) | IpLiteral (l : ip_literal).
(** authority.rs 5-10. *)
Record authority := mk_authority { au_host : host_name; au_port : option N; au_user : option user_info }.
(** path.rs 4-25 (the constant type_name is left out). *)
Inductive path :=
| RootlessPath (parts : list bytes) | AbemptyPath (parts : list bytes) | AbsolutePath (parts : list bytes)
| NoSchemePath (parts : list bytes) | EmptyPath.
(** hier_part.rs 6-10. *)
Record hier_part := mk_hier { hp_authority : option authority; hp_path : path }.
(** query.rs 5-8. *)
Definition query := list (bytes * option bytes).
(** uri.rs 14-20. *)
Record uri := mk_uri { u_scheme : option bytes; u_hier : option hier_part; u_query : option query; u_fragment : option bytes }.

(** path.rs 116-125. *)
Definition path_parts (p : path) : list bytes :=
  match p with
  | RootlessPath l | AbemptyPath l | AbsolutePath l | NoSchemePath l => l
  | EmptyPath => []
  end.
(** path.rs 147-161, 163-167. *)
Definition path_add_part (p : path) (part : bytes) : path :=
  match p with
  | RootlessPath l => RootlessPath (l ++ [part])
  | AbemptyPath l => AbemptyPath (l ++ [part])
  | AbsolutePath l => AbsolutePath (l ++ [part])
  | NoSchemePath l => NoSchemePath (l ++ [part])
  | EmptyPath => EmptyPath
  end.
Definition path_add_parts (p : path) (parts : list bytes) : path := fold_left path_add_part parts p.
(** path.rs 135-137: adds, although the name says otherwise. *)
Definition path_with_parts (p : path) (parts : list bytes) : path := path_add_parts p parts.
(** path.rs 139-141, 143-145. *)
Definition to_rootless (p : path) : path := RootlessPath (path_parts p).
Definition to_absolute (p : path) : path := AbsolutePath (path_parts p).
(** path.rs 127-129. *)
Definition path_is_empty (p : path) : bool := match path_parts p with [] => true | _ => false end.

(** ** Display *)
Definition show_opt {A} (f : A -> bytes) (o : option A) : bytes := match o with Some a => f a | None => [] end.
(** user_info.rs 18-33. *)
Definition show_user (u : user_info) : bytes := ui_name u ++ show_opt (fun p => bs ":" ++ p) (ui_password u).
(** std: Display for Ipv4Addr. *)
Definition show_ipv4 (a : ipv4) : bytes :=
  let '(a, b, c, d) := a in show_dec a ++ bs "." ++ show_dec b ++ bs "." ++ show_dec c ++ bs "." ++ show_dec d.
(** path.rs 33-41: parts().join(""). *)
Definition show_path (p : path) : bytes := List.concat (path_parts p).
(** std: [T]::join. *)
Fixpoint join (sep : bytes) (l : list bytes) : bytes :=
  match l with
  | [] => []
  | [x] => x
  | x :: l' => x ++ sep ++ join sep l'
  end.
(** query.rs 87-104. *)
Definition show_param (kv : bytes * option bytes) : bytes :=
  match snd kv with None => fst kv | Some v => fst kv ++ bs "=" ++ v end.
Definition show_query (q : query) : bytes := join (bs "&") (map show_param q).

Section Oracle.
(** std: Ipv6Addr::from_str and Display for Ipv6Addr; not modelled, the theorems hold for any functions. *)
Variable v6_parse : bytes -> ipv6 + unit.
Variable v6_show : ipv6 -> bytes.

(** host_name.rs 17-24, 32-40. *)
Definition show_ip_literal (l : ip_literal) : bytes :=
  match l with Ipv6Address a => bs "[" ++ v6_show a ++ bs "]" | IpvFuture s => bs "[" ++ s ++ bs "]" end.
Definition show_host (h : host_name) : bytes :=
  match h with RegName s => s | Ipv4Address a => show_ipv4 a | IpLiteral l => show_ip_literal l end.
(** authority.rs 22-39. *)
Definition show_authority (a : authority) : bytes :=
  show_opt (fun u => show_user u ++ bs "@") (au_user a) ++ show_host (au_host a) ++
  show_opt (fun n => bs ":" ++ show_dec n) (au_port a).
(** hier_part.rs 12-25. *)
Definition show_hier (h : hier_part) : bytes :=
  show_opt (fun a => bs "//" ++ show_authority a) (hp_authority h) ++ show_path (hp_path h).
(** uri.rs 33-65. *)
Definition show_uri (u : uri) : bytes :=
  show_opt (fun s => s) (u_scheme u) ++ bs ":" ++
  show_opt (fun h => show_opt (fun a => bs "//" ++ show_authority a) (hp_authority h)) (u_hier u) ++
  show_opt (fun h => show_path (hp_path h)) (u_hier u) ++
  show_opt (fun q => bs "?" ++ show_query q) (u_query u) ++
  show_opt (fun f => bs "#" ++ f) (u_fragment u).

(** uri.rs 90-95, 97-99, 101-103, 121-123. *)
Definition uri_authority (u : uri) : option authority :=
  match u_hier u with Some h => hp_authority h | None => None end.
Definition uri_host (u : uri) : option host_name := option_map au_host (uri_authority u).
Definition uri_port (u : uri) : option N := match uri_authority u with Some a => au_port a | None => None end.
Definition is_absolute (u : uri) : bool := match u_fragment u with None => true | Some _ => false end.

(** ** Query parameters.  A HashMap is an association list with at most one entry per key. *)
(** query.rs 50-67, one iteration of the loop. *)
Definition params_step (result : list (bytes * list bytes)) (kv : bytes * option bytes) : list (bytes * list bytes) :=
  let '(key, value) := kv in
  match hm_get result key, value with
  | None, None => hm_set result key []
  | None, Some v => hm_set result key [v]
  | Some values, Some v => hm_set result key (values ++ [v])
  | _, _ => result
  end.
Definition query_params (q : query) : list (bytes * list bytes) := fold_left params_step q [].
(** query.rs 83-85. *)
Definition get_param (q : query) (key : bytes) : option (list bytes) := hm_get (query_params q) key.
(** query.rs 69-71, 73-81. *)
Definition query_add (q : query) (key value : bytes) : query := q ++ [(key, Some value)].
Definition query_add_opt (q : query) (key : bytes) (value : option bytes) : query :=
  match value with Some v => query_add q key v | None => q end.

(** ** Parsers (uri/src/parsers) *)
(** parser/src/extension/parsers/element_parsers.rs 65-69, 101-105. *)
Definition p_elm_alpha_ref : parser N N := p_elm_pred_ref is_ascii_alpha.
Definition p_elm_hex_digit_ref : parser N N := p_elm_pred_ref is_ascii_hex_digit.
(** elm_ref_of(b"..."): Set for [u8; N]. *)
Definition elm_ref_of (l : bytes) : parser N N := p_elm_ref_of (set_contains l).

(** basic_parsers.rs 24-28. *)
Definition unreserved : parser N bytes :=
  p_name (p_collect (p_or (p_or p_elm_alpha_ref p_elm_digit_ref) (elm_ref_of (bs "-._~")))) "unreserved".
(** basic_parsers.rs 17-21. *)
Definition pct_encoded : parser N bytes :=
  p_name (p_collect (p_and (p_and (p_elm_ref (chr "%")) p_elm_hex_digit_ref) p_elm_hex_digit_ref)) "pct-encoded".
(** basic_parsers.rs 41-43. *)
Definition sub_delims : parser N bytes := p_collect (p_name (elm_ref_of (bs "!$&'()*+,;=")) "sub-delims").
(** basic_parsers.rs 45-47. *)
Definition sub_delims_without_eq_ampersand : parser N bytes :=
  p_collect (p_name (elm_ref_of (bs "!$'()*+,;")) "sub-delims").
(** basic_parsers.rs 36-38, 31-33. *)
Definition gen_delims : parser N bytes := p_collect (p_name (elm_ref_of (bs ":/?#[]@")) "gen-delims").
Definition reserved : parser N bytes := p_name (p_or gen_delims sub_delims) "reserved".
(** basic_parsers.rs 4-8. *)
Definition pchar : parser N bytes :=
  p_name (p_collect (p_or (p_or (p_or unreserved pct_encoded) sub_delims) (p_collect (elm_ref_of (bs ":@"))))) "pchar".
(** basic_parsers.rs 10-14. *)
Definition pchar_without_eq_amp : parser N bytes :=
  p_name (p_collect (p_or (p_or (p_or unreserved pct_encoded) sub_delims_without_eq_ampersand)
                          (p_collect (elm_ref_of (bs ":@"))))) "pchar".

(** .map(|e| e.to_vec()).map_res(String::from_utf8) *)
Definition to_string (p : parser N bytes) : parser N bytes := p_map_res (p_map p (fun e => e)) from_utf8.

(** scheme_parsers.rs 6-11. *)
Definition scheme : parser N bytes :=
  p_map (to_string (p_collect
    (p_and p_elm_alpha_ref (p_many0 (p_or (p_or p_elm_alpha_ref p_elm_digit_ref) (elm_ref_of (bs "+-.")))))))
    (fun e => e).

(** ip_v4_address_parsers.rs 16-29. *)
Definition dec_octet : parser N N :=
  let p1 := p_collect p_elm_digit in
  let p2 := p_collect (p_and p_elm_digit_1_9 p_elm_digit) in
  let p3 := p_collect (p_and (p_and (p_elm (chr "1")) p_elm_digit) p_elm_digit) in
  let p4 := p_collect (p_and (p_and (p_elm (chr "2")) (p_elm_in (chr "0") (chr "4"))) p_elm_digit) in
  let p5 := p_collect (p_and (p_and (p_elm (chr "2")) (p_elm (chr "5"))) (p_elm_in (chr "0") (chr "5"))) in
  p_name
    (p_map_res
      (to_string (p_collect
        (p_or (p_or (p_or (p_or (p_attempt p5) (p_attempt p4)) (p_attempt p3)) (p_attempt p2)) p1)))
      (parse_uint 255)) "dec-octet".
(** ip_v4_address_parsers.rs 5-9: d - '.' + d - '.' + d - '.' + d, left associative. *)
Definition ip_v4_address : parser N ipv4 :=
  let dot := p_elm (chr ".") in
  p_name
    (p_and (p_skip_right (p_and (p_skip_right (p_and (p_skip_right dec_octet dot) dec_octet) dot) dec_octet) dot) dec_octet)
    "ip_v4_address".

(** ip_v6_address_parsers.rs 169-178. *)
Definition h16 : parser N N :=
  p_name (p_map_res (to_string (p_collect (p_many_n_m p_elm_hex_digit 1 4))) (parse_hex 65535)) "h16".
(** ip_v6_address_parsers.rs 180-184, 196-198. *)
Inductive ls32_value := Ls32 (l r : N) | Ls32Ipv4 (a : ipv4).
Definition ls32 : parser N ls32_value :=
  p_or (p_attempt (p_map (p_and (p_skip_right h16 (p_elm (chr ":"))) h16) (fun ab => Ls32 (fst ab) (snd ab))))
       (p_map ip_v4_address Ls32Ipv4).
(** The two groups written by an ls32: ip_v6_address_parsers.rs 13-19. *)
Definition ls32_groups (x : ls32_value) : list N :=
  match x with
  | Ls32 l r => [l; r]
  | Ls32Ipv4 (a, b, c, d) => [a * 256 + b; c * 256 + d]%N
  end.
(** vec[0], .., vec[n-1]: None when an index is out of range (panic). *)
Definition index_n (v : list N) (n : nat) : option (list N) :=
  if n <=? length v then Some (firstn n v) else None.
(** ip_v6_address_parsers.rs 8-21. *)
Definition ip_v6_address1 : parser N ipv6 :=
  p_map_panic (p_and (p_count (p_skip_right h16 (p_elm (chr ":"))) 6) ls32)
    (fun '(v, b) => option_map (fun g => g ++ ls32_groups b) (index_n v 6)).
(** 24-37. *)
Definition ip_v6_address2 : parser N ipv6 :=
  p_map_panic (p_and (p_skip_left (p_seqN (bs "::")) (p_count (p_skip_right h16 (p_elm (chr ":"))) 5)) ls32)
    (fun '(v, b) => option_map (fun g => [0%N] ++ g ++ ls32_groups b) (index_n v 5)).
(** 40-71. *)
Definition ip_v6_address3 : parser N ipv6 :=
  p_map_panic (p_and (p_and (p_skip_right (p_opt h16) (p_seqN (bs "::")))
                            (p_count (p_skip_right h16 (p_elm (chr ":"))) 4)) ls32)
    (fun '((h, v), b) =>
       option_map (fun g => [match h with Some x => x | None => 0%N end; 0%N] ++ g ++ ls32_groups b) (index_n v 4)).
(** 73-82: the closure's result is (). *)
Definition ip_v6_address_p1 (n : nat) : parser N bytes :=
  p_collect (p_opt (p_map (p_and h16 (p_many_n_m (p_skip_left (p_elm (chr ":")) h16) 0 n)) (fun _ => tt))).
(** 84-87. *)
Definition ip_v6_address_p2 (n m : nat) : parser N bytes :=
  let p2 := p_collect (p_and (p_count (p_and h16 (p_elm (chr ":"))) m) ls32) in
  p_collect (p_and (p_and (ip_v6_address_p1 n) (p_seqN (bs "::"))) p2).
(** .map(|e| e.to_vec()).map_res(String::from_utf8).map_res(|s| s.parse::<Ipv6Addr>()) *)
Definition to_ipv6 (p : parser N bytes) : parser N ipv6 := p_map_res (to_string p) v6_parse.
(** 90-95, 98-103, 106-111, 114-120, 123-129, 132-138. *)
Definition ip_v6_address4 : parser N ipv6 := to_ipv6 (ip_v6_address_p2 1 3).
Definition ip_v6_address5 : parser N ipv6 := to_ipv6 (ip_v6_address_p2 2 2).
Definition ip_v6_address6 : parser N ipv6 := to_ipv6 (ip_v6_address_p2 3 1).
Definition ip_v6_address7 : parser N ipv6 :=
  to_ipv6 (p_collect (p_and (p_and (ip_v6_address_p1 4) (p_seqN (bs "::"))) ls32)).
Definition ip_v6_address8 : parser N ipv6 :=
  to_ipv6 (p_collect (p_and (p_and (ip_v6_address_p1 5) (p_seqN (bs "::"))) h16)).
Definition ip_v6_address9 : parser N ipv6 :=
  to_ipv6 (p_collect (p_and (ip_v6_address_p1 5) (p_seqN (bs "::")))).
(** 140-151. *)
Definition ip_v6_address : parser N ipv6 :=
  p_name
    (p_or (p_or (p_or (p_or (p_or (p_or (p_or (p_or
      (p_attempt ip_v6_address1) (p_attempt ip_v6_address2)) (p_attempt ip_v6_address3)) (p_attempt ip_v6_address4))
      (p_attempt ip_v6_address5)) (p_attempt ip_v6_address6)) (p_attempt ip_v6_address7)) (p_attempt ip_v6_address8))
      ip_v6_address9) "ip_v6_address".

(** host_parsers.rs 22-31. *)
Definition ip_v_future : parser N bytes :=
  p_name
    (to_string (p_collect
      (p_and (p_and (p_and (p_elm_ref (chr "v")) (p_many1 p_elm_hex_digit)) (p_elm (chr ".")))
             (p_many1 (p_or (p_or unreserved sub_delims) (p_collect (p_elm_ref (chr ":"))))))))
    "ipv-future".
(** host_parsers.rs 15-19. *)
Definition ip_literal_p : parser N ip_literal :=
  p_name
    (p_skip_right
      (p_skip_left (p_elm_ref (chr "[")) (p_or (p_attempt (p_map ip_v6_address Ipv6Address)) (p_map ip_v_future IpvFuture)))
      (p_elm_ref (chr "]")))
    "ip-literal".
(** host_parsers.rs 34-42. *)
Definition reg_name : parser N host_name :=
  p_name
    (p_map
      (to_string (p_collect (p_many1 (p_or (p_or (p_attempt unreserved) (p_attempt pct_encoded)) sub_delims))))
      RegName)
    "reg-name".
(** host_parsers.rs 9-12. *)
Definition host : parser N host_name :=
  p_name
    (p_or (p_or (p_attempt (p_map ip_literal_p IpLiteral)) (p_attempt (p_map ip_v4_address Ipv4Address))) reg_name) "host".
(** port_parsers.rs 3-9. *)
Definition port : parser N N :=
  p_name (p_map_res (p_map_res (p_many0 p_elm_digit) from_utf8) (parse_uint 65535)) "port".
(** user_info_parsers.rs 6-12. *)
Definition user_info_p : parser N user_info :=
  let p := p_or (p_or (p_attempt unreserved) (p_attempt pct_encoded)) sub_delims in
  p_name
    (p_map
      (p_and (to_string (p_collect (p_many0 p)))
             (p_opt (p_skip_left (p_elm (chr ":")) (to_string (p_collect (p_many1 p))))))
      (fun np => mk_user (fst np) (snd np)))
    "user_info".
(** authority_parsers.rs 9-12. *)
Definition authority_p : parser N authority :=
  p_map
    (p_and (p_and (p_opt (p_skip_right user_info_p (p_elm_ref (chr "@")))) host)
           (p_opt (p_skip_left (p_elm_ref (chr ":")) port)))
    (fun '((u, h), p) => mk_authority h p u).

(** path_parsers.rs 92-94, 97-99, 103-108. *)
Definition segment : parser N bytes := p_name (p_collect (p_many0 pchar)) "segment".
Definition segment_nz : parser N bytes := p_name (p_collect (p_many1 pchar)) "segment-nz".
Definition segment_nz_nc : parser N bytes :=
  p_name (p_collect (p_many1 (p_or (p_or (p_or unreserved pct_encoded) sub_delims) (p_collect (p_elm (chr "@")))))) "segment-nz-nc".
(** path_parsers.rs 19, 29, 57, 75: (elm(b'/') + segment()).collect() *)
Definition slash_segment : parser N bytes := p_collect (p_and (p_elm (chr "/")) segment).
(** path_parsers.rs 17-25. *)
Definition path_abempty (required : bool) : parser N path :=
  p_name (p_map (p_repeat (to_string slash_segment) (rg_from (if required then 1 else 0))) AbemptyPath) "path-abempty".
(** .map(|v| String::from_utf8(v).unwrap()) on every part: None is the panic. *)
Fixpoint strings_of (l : list bytes) : option (list bytes) :=
  match l with
  | [] => Some []
  | x :: l' => match from_utf8 x, strings_of l' with
               | inl s, Some r => Some (s :: r)
               | _, _ => None
               end
  end.
(** path_parsers.rs 56-71. *)
Definition path_rootless : parser N path :=
  p_name (p_map (p_map_panic (p_map (p_and segment_nz (p_many0 slash_segment)) (fun ab => fst ab :: snd ab)) strings_of)
                RootlessPath) "path-rootless".
(** path_parsers.rs 74-89. *)
Definition path_noscheme : parser N path :=
  p_name (p_map (p_map_panic (p_map (p_and segment_nz_nc (p_many0 slash_segment)) (fun ab => fst ab :: snd ab)) strings_of)
                RootlessPath) "path-noscheme".
(** path_parsers.rs 28-53. *)
Definition path_absolute : parser N path :=
  let p := p_opt (p_map (p_and segment_nz (p_many0 slash_segment)) (fun ab => fst ab :: snd ab)) in
  p_name
    (p_map
      (p_map_panic
        (p_map (p_and (p_collect (p_elm (chr "/"))) p) (fun ab => match snd ab with None => [fst ab] | Some b => fst ab :: b end))
        strings_of)
      AbsolutePath)
    "path-absolute".
(** path_parsers.rs 10-14. *)
Definition path_p : parser N (option path) :=
  p_name (p_opt (p_or (p_or (p_or (p_attempt path_rootless) (p_attempt (path_abempty true))) (p_attempt path_absolute))
                      path_noscheme)) "path".
(** hier_part_parsers.rs 10-14. *)
Definition hier_part_p : parser N (option hier_part) :=
  let p1 := p_map (p_and (p_skip_left (p_seqN (bs "//")) authority_p) (path_abempty false))
                  (fun ab => mk_hier (Some (fst ab)) (snd ab)) in
  let p2 := p_map (p_or (p_attempt (path_abempty true)) path_rootless) (fun e => mk_hier None e) in
  p_opt (p_or (p_attempt p1) p2).
(** query_parsers.rs 6-20. *)
Definition code_point : parser N bytes :=
  to_string (p_collect (p_many0 (p_or pchar_without_eq_amp (p_collect (p_elm_of (bs "/?")))))).
Definition key_values : parser N (bytes * option bytes) :=
  p_and code_point (p_opt (p_skip_left (p_elm (chr "=")) code_point)).
Definition query_p : parser N query :=
  p_map (p_and key_values (p_many0 (p_skip_left (p_elm (chr "&")) key_values))) (fun ab => fst ab :: snd ab).
(** fragment_parsers.rs 5-12. *)
Definition fragment : parser N bytes :=
  p_name (to_string (p_collect (p_many0 (p_or pchar (p_collect (elm_ref_of (bs "/?"))))))) "fragment".
(** uri_parsers.rs 9-11. *)
Definition absolute_uri : parser N uri :=
  p_map
    (p_and (p_and (p_skip_right (p_opt scheme) (p_elm (chr ":"))) hier_part_p) (p_opt (p_skip_left (p_elm (chr "?")) query_p)))
    (fun '((a, b), c) => mk_uri a b c None).
(** uri_parsers.rs 14-17. *)
Definition uri_p : parser N uri :=
  p_map
    (p_and (p_and (p_and (p_skip_right (p_opt scheme) (p_elm (chr ":"))) hier_part_p)
                  (p_opt (p_skip_left (p_elm (chr "?")) query_p)))
           (p_opt (p_skip_left (p_elm (chr "#")) fragment)))
    (fun '(((s, h), q), f) => mk_uri s h q f).
(** uri.rs 68-70 (to_result: C-level detail in Core.v). *)
Definition uri_parse (text : bytes) : outcome N uri := parse uri_p text.
End Oracle.
