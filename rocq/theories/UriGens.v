(** The generators of the randomised tests of uri/src (the modules gens) and hocon/src/parsers.rs.  A generator is the set of
    the values it can produce: the functions of the crate prop_check_rs that they are built from are read as sets, without
    weights and random states.  Text is a list of bytes, all of them ASCII. *)
From Verif Require Import Base Text Uri UriStd.
Set Implicit Arguments.
Local Open Scope string_scope.
Local Open Scope nat_scope.
Local Open Scope list_scope.

(** ** prop_check_rs::gen *)
Definition gen (A : Type) : Type := A -> Prop.
(** Gens::pure, Gen::map, Gen::flat_map. *)
Definition g_pure {A} (a : A) : gen A := fun x => x = a.
Definition g_map {A B} (g : gen A) (f : A -> B) : gen B := fun y => exists x, g x /\ y = f x.
Definition g_flat_map {A B} (g : gen A) (f : A -> gen B) : gen B := fun y => exists x, g x /\ f x y.
(** Gens::one_of_values of a list, and of a range of characters; Gens::choose, choose_u8, choose_u16, choose_u32, choose_char. *)
Definition one_of_values {A} (l : list A) : gen A := fun x => In x l.
Definition choose (lo hi : N) : gen N := fun x => (lo <= x <= hi)%N.
(** Gens::frequency, Gens::one_bool, Gens::list_of_n. *)
Definition frequency {A} (l : list (gen A)) : gen A := fun x => Exists (fun g => g x) l.
Definition one_bool : gen bool := fun _ => True.
Definition list_of_n {A} (n : N) (g : gen A) : gen (list A) := fun l => N.of_nat (length l) = n /\ Forall g l.
(** char -> String: c.into() *)
Definition into (c : N) : bytes := [c].

(** ** basic_parsers.rs *)
(** 53-62. *)
Definition to_option {A} (g : gen A) : gen (option A) :=
  g_flat_map one_bool (fun b => if b then g_map g Some else g_pure None).
(** 65-67, 69-71, 73-75, 77-79. *)
Definition low_alpha_gen : gen N := choose (chr "a") (chr "z").
Definition high_alpha_gen : gen N := choose (chr "A") (chr "Z").
Definition alpha_char_gen : gen N := g_flat_map one_bool (fun b => if b then low_alpha_gen else high_alpha_gen).
Definition digit_gen (min max : N) : gen N := choose min max.
(** 87-105; the generators use only the mode Lower. *)
Definition hex_digit_gen_lower : gen N :=
  frequency [digit_gen (chr "0") (chr "9"); digit_gen (chr "0") (chr "9"); choose (chr "a") (chr "f")].
(** 107-110, 112-115. *)
Definition repeat_gen_of_char (len : N) (g : gen N) : gen bytes := g_flat_map (choose 1 len) (fun n => list_of_n n g).
Definition repeat_gen_of_string (min max : N) (g : gen bytes) : gen bytes :=
  g_flat_map (choose min max) (fun n => g_map (list_of_n n g) (@List.concat N)).
(** 117-123, 125-127. *)
Definition unreserved_gen_of_char : gen N :=
  frequency [alpha_char_gen; digit_gen (chr "0") (chr "9"); one_of_values (bs "-._~")].
Definition unreserved_gen (len : N) : gen bytes := repeat_gen_of_char len unreserved_gen_of_char.
(** 129-131, 133-135, 137-139, 141-143. *)
Definition gen_delims_gen_of_char : gen N := one_of_values (bs ":/?#[]@").
Definition gen_delims_gen (len : N) : gen bytes := repeat_gen_of_char len gen_delims_gen_of_char.
Definition sub_delims_gen_of_char : gen N := one_of_values (bs "!$&'()*+,;=").
Definition sub_delims_gen (len : N) : gen bytes := repeat_gen_of_char len sub_delims_gen_of_char.
(** 145-153, 155-157. *)
Definition reserved_gen_of_char : gen N :=
  g_flat_map one_bool (fun b => if b then gen_delims_gen_of_char else sub_delims_gen_of_char).
Definition reserved_gen (len : N) : gen bytes := repeat_gen_of_char len reserved_gen_of_char.
(** 159-164. *)
Definition pct_encoded_gen : gen bytes := g_map (list_of_n 2 hex_digit_gen_lower) (fun cl => bs "%" ++ cl).
(** 166-175. *)
Definition pchar_gen (min max : N) : gen bytes :=
  repeat_gen_of_string min max
    (frequency [g_map unreserved_gen_of_char into; pct_encoded_gen; g_map sub_delims_gen_of_char into;
                g_map (one_of_values (bs ":@")) into]).

(** ** The other modules of uri/src/parsers *)
(** fragment_parsers.rs 19-26. *)
Definition fragment_gen : gen bytes :=
  repeat_gen_of_string 1 254 (frequency [pchar_gen 1 1; g_map (one_of_values (bs "/?")) into]).
(** scheme_parsers.rs 19-31. *)
Definition scheme_gen : gen bytes :=
  g_flat_map
    (repeat_gen_of_char 5
      (frequency [alpha_char_gen; digit_gen (chr "0") (chr "9"); g_pure (chr "+"); g_pure (chr "-"); g_pure (chr ".")]))
    (fun s => g_map alpha_char_gen (fun c => c :: s)).
(** ip_v4_address_parsers.rs 35-37, 39-41. *)
Definition dec_octet_gen : gen bytes := g_map (choose 1 255) show_dec.
Definition ipv4_address_gen : gen bytes := g_map (list_of_n 4 dec_octet_gen) (join (bs ".")).
(** ip_v6_address_parsers.rs 207-212: u16::from_str_radix and format!("{:x}"), the first only on up to four hexadecimal digits. *)
Definition h16_gen : gen bytes :=
  g_map (g_map (g_flat_map (choose 1 4) (fun n => repeat_gen_of_char n hex_digit_gen_lower)) hex_value) show_hex.
(** 214-219. *)
Definition ls32_gen : gen bytes :=
  frequency [ipv4_address_gen; g_map (list_of_n 2 h16_gen) (join (bs ":"))].
(** 221-223, 225-227, 229-236 (the list is never empty, so split_first gives a head). *)
Definition ipv6_address_gen1 : gen bytes :=
  g_flat_map (list_of_n 6 h16_gen) (fun sl => g_map ls32_gen (fun ls => join (bs ":") sl ++ bs ":" ++ ls)).
Definition ipv6_address_gen2 : gen bytes :=
  g_flat_map (list_of_n 5 h16_gen) (fun sl => g_map ls32_gen (fun ls => bs "::" ++ join (bs ":") sl ++ bs ":" ++ ls)).
Definition ipv6_address_gen3 : gen bytes :=
  g_flat_map (list_of_n 5 h16_gen) (fun sl => g_map ls32_gen (fun ls =>
    hd [] sl ++ bs "::" ++ join (bs ":") (tl sl) ++ bs ":" ++ ls)).
(** ip_v6_address_parsers.rs 239-350: the optional groups in front of "::": nothing, one group, or n groups. *)
Definition left_gen (n : N) : gen bytes :=
  g_flat_map one_bool (fun b =>
    if b then frequency [h16_gen; g_map (list_of_n n h16_gen) (join (bs ":"))] else g_pure []).
(** "::", m groups each followed by ':', and an ls32 *)
Definition right_gen (m : N) (s0 : bytes) : gen bytes :=
  g_map
    (g_flat_map (g_map (g_map (list_of_n m (g_map h16_gen (fun v => v ++ bs ":"))) (@List.concat N)) (fun s => bs "::" ++ s))
      (fun s2 => g_map ls32_gen (fun s3 => s2 ++ s3)))
    (fun s => s0 ++ s).
(** 239-258, 261-280, 283-302. *)
Definition ipv6_address_gen4 : gen bytes := g_flat_map (left_gen 2) (right_gen 3).
Definition ipv6_address_gen5 : gen bytes := g_flat_map (left_gen 3) (right_gen 2).
Definition ipv6_address_gen6 : gen bytes := g_flat_map (left_gen 3) (right_gen 1).
(** 305-318, 321-334, 337-350. *)
Definition ipv6_address_gen7 : gen bytes :=
  g_flat_map (left_gen 4) (fun s0 => g_map ls32_gen (fun s1 => s0 ++ bs "::" ++ s1)).
Definition ipv6_address_gen8 : gen bytes :=
  g_flat_map (left_gen 5) (fun s0 => g_map h16_gen (fun s1 => s0 ++ bs "::" ++ s1)).
Definition ipv6_address_gen9 : gen bytes := g_map (left_gen 6) (fun s0 => s0 ++ bs "::").
(** 352-366: parse::<Ipv6Addr>().unwrap(), then to_string(); a text that the standard library rejects gives nothing here. *)
Definition ipv6_address_gen : gen bytes :=
  g_flat_map
    (frequency [ipv6_address_gen1; ipv6_address_gen2; ipv6_address_gen3; ipv6_address_gen4; ipv6_address_gen5;
                ipv6_address_gen6; ipv6_address_gen7; ipv6_address_gen8; ipv6_address_gen9])
    (fun s t => exists i, std_v6_parse s = inl i /\ t = std_v6_show i).

(** host_parsers.rs 52-60. *)
Definition reg_name_gen : gen bytes :=
  repeat_gen_of_string 1 10
    (frequency [g_map unreserved_gen_of_char into; g_map sub_delims_gen_of_char into; pct_encoded_gen]).
(** 62-74. *)
Definition ip_v_future_gen : gen bytes :=
  g_flat_map (repeat_gen_of_char 5 hex_digit_gen_lower) (fun s1 =>
    g_map (repeat_gen_of_char 5 (frequency [unreserved_gen_of_char; sub_delims_gen_of_char; g_pure (chr ":")]))
      (fun s2 => bs "v" ++ s1 ++ bs "." ++ s2)).
(** 76-78. *)
Definition ip_literal_gen : gen bytes :=
  g_map (frequency [ipv6_address_gen; ip_v_future_gen]) (fun s => bs "[" ++ s ++ bs "]").
(** port_parsers.rs 15-17. *)
Definition port_gen : gen bytes := g_map (choose 1 65534) show_dec.
(** user_info_parsers.rs 20-36. *)
Definition user_info_gen : gen bytes :=
  let g := repeat_gen_of_string 1 5 (frequency [unreserved_gen 1; pct_encoded_gen; sub_delims_gen 1]) in
  g_flat_map one_bool (fun b =>
    if b then g_flat_map g (fun s1 => g_map g (fun s2 => s1 ++ bs ":" ++ s2)) else g).

(** path_parsers.rs 118-120, 122-124, 126-135. *)
Definition segment_gen : gen bytes := pchar_gen 0 254.
Definition segment_nz_gen : gen bytes := pchar_gen 1 254.
Definition segment_nz_nc_gen : gen bytes :=
  repeat_gen_of_string 1 254
    (frequency [g_map unreserved_gen_of_char into; pct_encoded_gen; g_map sub_delims_gen_of_char into; g_pure (bs "@")]).
(** 137-139, 141-148, 150-154, 156-160. *)
Definition path_abempty_gen : gen bytes := repeat_gen_of_string 1 10 (g_map segment_gen (fun s => bs "/" ++ s)).
Definition path_absolute_gen : gen bytes :=
  g_flat_map (repeat_gen_of_string 1 10 (g_map segment_nz_gen (fun s => bs "/" ++ s))) (fun s1 =>
    g_map path_abempty_gen (fun s2 =>
      (match s1 with x :: _ => if (x =? chr "/")%N then [] else bs "/" | [] => bs "/" end) ++ s1 ++ s2)).
Definition path_no_scheme_gen : gen bytes :=
  g_flat_map segment_nz_nc_gen (fun s1 =>
    g_map (repeat_gen_of_string 1 10 (g_map segment_gen (fun s2 => bs "/" ++ s2))) (fun s2 => s1 ++ s2)).
Definition path_rootless_gen : gen bytes :=
  g_flat_map segment_nz_gen (fun s1 =>
    g_map (repeat_gen_of_string 1 10 (g_map segment_gen (fun s2 => bs "/" ++ s2))) (fun s2 => s1 ++ s2)).
(** 175-183, 185-191; the name in the pair is reduced to whether it is "empty_path". *)
Definition path_with_abempty_gen : gen bytes :=
  frequency [path_abempty_gen; path_absolute_gen; path_no_scheme_gen; path_rootless_gen; g_pure []].
Definition path_str_without_abempty_gen : gen (bool * bytes) :=
  frequency [g_map path_absolute_gen (pair false); g_map path_rootless_gen (pair false); g_pure (true, [])].

(** query_parsers.rs 28-30, 36-45, 47-57. *)
Definition sub_delims_without_gen_of_char : gen N := one_of_values (bs "!$'()*+,;").
Definition pchar_without_eq_amp_gen (min max : N) : gen bytes :=
  repeat_gen_of_string min max
    (frequency [g_map unreserved_gen_of_char into; pct_encoded_gen; g_map sub_delims_without_gen_of_char into;
                g_map (one_of_values (bs ":@")) into]).
Definition query_gen : gen bytes :=
  g_map
    (list_of_n 3
      (g_flat_map (pchar_without_eq_amp_gen 1 10) (fun key =>
        g_map (list_of_n 2 (pchar_without_eq_amp_gen 1 10))
          (fun vl => join (bs "&") (map (fun v => key ++ bs "=" ++ v) vl)))))
    (join (bs "&")).

(** ** Generators with hosts; the code's are those with the argument [reg_name_gen]. *)
Section Hosts.
Variable reg : gen bytes.
(** host_parsers.rs 80-82. *)
Definition host_gen_of : gen bytes := frequency [ip_literal_gen; ipv4_address_gen; reg].
(** authority_parsers.rs 22-38. *)
Definition authority_gen_of : gen bytes :=
  g_flat_map (to_option user_info_gen) (fun ui =>
    g_map
      (g_flat_map host_gen_of (fun h =>
        g_map (to_option port_gen) (fun p => h ++ show_opt (fun s => bs ":" ++ s) p)))
      (fun hp => show_opt (fun s => s ++ bs "@") ui ++ hp)).
(** hier_part_parsers.rs 23-37; the flag is Some(true) of the code. *)
Definition hier_part_gen_of : gen (bool * bytes) :=
  g_flat_map one_bool (fun b =>
    if b then
      g_map (g_flat_map authority_gen_of (fun a => g_map path_abempty_gen (fun p => bs "//" ++ a ++ p))) (pair false)
    else path_str_without_abempty_gen).
(** uri_parsers.rs 29-49. *)
Definition uri_gen_of : gen bytes :=
  g_flat_map scheme_gen (fun scheme =>
    let base_gen := g_map hier_part_gen_of (fun he => (scheme ++ bs ":" ++ snd he, fst he)) in
    let q_gen := g_flat_map base_gen (fun se =>
      if snd se then g_pure se else g_map query_gen (fun q => (fst se ++ bs "?" ++ q, snd se))) in
    g_flat_map q_gen (fun se =>
      if snd se then g_pure (fst se) else g_map fragment_gen (fun f => fst se ++ bs "#" ++ f))).
End Hosts.
Definition host_gen : gen bytes := host_gen_of reg_name_gen.
Definition authority_gen : gen bytes := authority_gen_of reg_name_gen.
Definition hier_part_gen : gen (bool * bytes) := hier_part_gen_of reg_name_gen.
Definition uri_gen : gen bytes := uri_gen_of reg_name_gen.

(** ** hocon/src/parsers.rs *)
(** 335-354: the letter is chosen by a cumulative map, the same as frequency. *)
Definition comment_gen : gen bytes :=
  let char_gen := frequency [choose (chr "a") (chr "z"); choose (chr "A") (chr "Z")] in
  let tail := g_flat_map (choose 0 128) (fun n => list_of_n n char_gen) in
  g_flat_map (one_of_values [bs "#"; bs "//"]) (fun h => g_map tail (fun t => h ++ t)).
(** 356-370, 372-374. *)
Definition space_gen : gen bytes :=
  g_flat_map (choose 1 128) (fun n => list_of_n n (one_of_values [32; 13; 10; 9]%N)).
Definition comment_space_gen : gen bytes := frequency [comment_gen; space_gen].
(** 376-378, 380-382. *)
Definition include_method_gen : gen bytes := one_of_values [bs "file"; bs "url"].
Definition include_config_value_gen : gen bytes :=
  g_flat_map include_method_gen (fun method => g_pure (bs "include " ++ method ++ bs "(""" ++ bs "abc" ++ bs """)")).
(** 384-397, 399-402. *)
Definition path_element_gen : gen bytes :=
  g_flat_map (choose 1 128) (fun n =>
    list_of_n n (frequency [g_pure (chr "-"); g_pure (chr "_"); choose (chr "a") (chr "z"); choose (chr "A") (chr "Z")])).
Definition hocon_path_gen : gen bytes :=
  g_flat_map (choose 1 128) (fun n => g_map (list_of_n n path_element_gen) (join (bs "."))).

(** ** Display of the parts of an IPv6 address (ip_v6_address_parsers.rs 162-166, 186-193) *)
Definition show_h16 (v : N) : bytes := show_hex v.
Definition show_ls32 (v : ls32_value) : bytes :=
  match v with Ls32 l r => show_h16 l ++ bs ":" ++ show_h16 r | Ls32Ipv4 a => show_ipv4 a end.
