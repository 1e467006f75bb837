(** * Properties: writing numbers (C29-C32, C52, C53)

    [canonical radix v s] (TextSpec.v): [s] is a nonempty digit string of value
    [v] without superfluous zeros.  Strings are lists of byte values. *)

Require Import ZArith Znumtheory List Bool Lia.
From Verif Require Import Prim Spec Facts MCore PCore PBits MArith PArith PArith2 PRet MScalar TextSpec MApi MParse PParse PParse2
  PropsParse MWrite PWrite PWrite2.
Import ListNotations.
Local Open Scope Z_scope.

(** [m] returns a buffer whose first [i] bytes are those of [buffer] and whose
    other bytes, the string, satisfy [p]. *)
Definition writes (m : res (list Z * nat)) (buffer : list Z) (p : list Z -> Prop) : Prop :=
  exists i s, m = Ok (firstn i buffer ++ s, i) /\ (i + length s = length buffer)%nat /\ p s.
(** Formatting succeeds with a string satisfying [p]. *)
Definition prints (m : res (option (list Z))) (p : list Z -> Prop) : Prop := exists s, m = Ok (Some s) /\ p s.
Definition upper_numeral (radix v : Z) (s : list Z) : Prop := canonical radix v s /\ Forall upper_digit s.
Definition lower_numeral (radix v : Z) (s : list Z) : Prop := canonical radix v s /\ Forall lower_digit s.

(** ** C29: to_str_radix *)

(** the canonical numeral is unique, so the theorems below fix the output *)
Theorem C29_unique : forall radix v s t, 2 <= radix -> upper_numeral radix v s -> upper_numeral radix v t -> s = t.
Proof. intros radix v s t Hr [Cs Us] [Ct Ut]. exact (canonical_unique radix v s t Hr Us Ut Cs Ct). Qed.
Theorem C29_unsigned : forall (c : Cfg) x buffer radix, Valid -> wf x -> 2 <= radix <= 36 ->
  BITS <= Z.of_nat (length buffer) ->
  writes (to_str_radix false x buffer radix) buffer (upper_numeral radix (uval x)).
Proof.
  intros c x buffer radix HV Hx Hr HL. pose proof (uval_range HV x Hx).
  destruct (to_str_radix_ok HV false x buffer radix) as (i & s & E & L & C & U); auto; [cbn; lia|cbn; lia|].
  exists i, s. split; auto. split; auto. split; auto.
Qed.
Theorem C29_signed_nonnegative : forall (c : Cfg) x buffer radix, Valid -> wf x -> 0 <= sval x -> 2 <= radix <= 36 ->
  BITS + 1 <= Z.of_nat (length buffer) ->
  writes (to_str_radix true x buffer radix) buffer (upper_numeral radix (sval x)).
Proof.
  intros c x buffer radix HV Hx Hp Hr HL.
  destruct (to_str_radix_ok HV true x buffer radix) as (i & s & E & L & C & U); auto.
  exists i, s. split; auto. split; auto. split; auto.
Qed.
(** negative numbers: a minus sign and one character made from the lowest byte;
    with overflow checks a panic when the addition overflows *)
Theorem C29_negative : forall (c : Cfg) x buffer radix, Valid -> wf x -> sval x < 0 -> 2 <= radix <= 36 ->
  BITS + 1 <= Z.of_nat (length buffer) ->
  let small := (radix <=? 10) || (sval x mod 2 ^ 32 <? 10) in
  (chk = true /\ 256 <= sval x mod 256 + (if small then 48 else 65) /\ to_str_radix true x buffer radix = Panic) \/
  ((chk = false \/ sval x mod 256 + (if small then 48 else 65) < 256) /\
   writes (to_str_radix true x buffer radix) buffer (eq [45; (sval x + (if small then 48 else 55)) mod 256])).
Proof.
  intros c x buffer radix HV Hx Hn Hr HL. cbn zeta. rewrite (to_str_radix_negative HV) by auto.
  assert (HM : sval x mod 2 ^ 32 mod 256 = sval x mod 256).
  { symmetry. apply Zmod_div_mod; try (vm_compute; reflexivity). exists (2 ^ 24). reflexivity. }
  rewrite digit_to_char_any by (apply Z.mod_pos_bound; vm_compute; reflexivity). rewrite HM. unfold off.
  set (k := if (radix <=? 10) || (sval x mod 2 ^ 32 <? 10) then 65 else 0).
  set (small := (radix <=? 10) || (sval x mod 2 ^ 32 <? 10)) in *. clear k.
  assert (HQ : (sval x mod 2 ^ 32 + (if small then 48 else 55)) mod 256 = (sval x + (if small then 48 else 55)) mod 256).
  { rewrite <- Zplus_mod_idemp_l, HM. apply Zplus_mod_idemp_l. }
  rewrite HQ. pose proof (BITS_ge HV).
  destruct (Z.leb_spec 256 (sval x mod 256 + (if small then 48 else 65))) as [L|L].
  - destruct chk; cbn [andb bind].
    + left. auto.
    + right. split; auto. eexists _, _. split; [reflexivity|]. split; [cbn [length]; lia|reflexivity].
  - rewrite andb_false_r. cbn [bind]. right. split; auto. eexists _, _. split; [reflexivity|]. split; [cbn [length]; lia|reflexivity].
Qed.
(** … which is never a numeral of the number *)
Theorem C29_negative_never : forall (c : Cfg) x buffer radix, Valid -> wf x -> sval x < 0 -> 2 <= radix <= 36 ->
  BITS + 1 <= Z.of_nat (length buffer) ->
  ~ writes (to_str_radix true x buffer radix) buffer (fun s => numeral true radix s (sval x)).
Proof.
  intros c x buffer radix HV Hx Hn Hr HL (i & s & E & Hi & HN).
  destruct (C29_negative c x buffer radix HV Hx Hn Hr HL) as [(_ & _ & E')|(_ & (i' & s' & E' & Hi' & <-))]; [congruence|].
  rewrite E' in E. inversion E as [[E1 E2]]. subst i'. apply app_inv_head in E1. subst s.
  apply numeral_neg in HN. destruct HN as [_ HN]. unfold numval in HN. cbn [horner] in HN.
  destruct (digit_in radix _) as [d|] eqn:Ed; [|discriminate]. pose proof (digit_in_range _ _ _ Ed) as Rd. inversion HN as [Hv].
  assert (Hd : sval x = - d) by lia. clear HN Hv.
  assert (Hm : sval x mod 2 ^ 32 = 2 ^ 32 - d) by (rewrite Hd; symmetry; apply (Z.mod_unique (- d) (2 ^ 32) (-1)); lia).
  assert (Hs : (sval x mod 2 ^ 32 <? 10) = false) by (apply Z.ltb_ge; rewrite Hm; change (2 ^ 32) with 4294967296; lia).
  change (Z.pow_pos 2 32) with (2 ^ 32) in Ed. rewrite Hs, orb_false_r in Ed. unfold digit_in, digit_of in Ed. rewrite Hd in Ed. clear Hs Hm E E' Hi Hi' HL.
  destruct (Z.leb_spec radix 10).
  - replace ((- d + 48) mod 256) with (48 - d) in Ed by (rewrite Z.mod_small; lia).
    destruct (Z.leb_spec 48 (48 - d)), (Z.leb_spec (48 - d) 57), (Z.leb_spec 65 (48 - d)), (Z.leb_spec (48 - d) 90), (Z.leb_spec 97 (48 - d)), (Z.leb_spec (48 - d) 122); try lia; cbn [andb] in Ed;
    try discriminate; repeat match goal with H : context [?a <? ?b] |- _ => destruct (a <? b) end; inversion Ed; lia.
  - replace ((- d + 55) mod 256) with (55 - d) in Ed by (rewrite Z.mod_small; lia).
    destruct (Z.leb_spec 48 (55 - d)), (Z.leb_spec (55 - d) 57), (Z.leb_spec 65 (55 - d)), (Z.leb_spec (55 - d) 90), (Z.leb_spec 97 (55 - d)), (Z.leb_spec (55 - d) 122); try lia; cbn [andb] in Ed;
    try discriminate; repeat match goal with H : context [?a <? ?b] |- _ => destruct (a <? b) end; try discriminate; assert (forall a b : Z, Some a = Some b -> a = b) as SI by congruence; apply SI in Ed; lia.
Qed.
Theorem C29_negative_refuted : exists (c : Cfg) x buffer radix, Valid /\ wf x /\ sval x < 0 /\ 2 <= radix <= 36 /\
  BITS + 1 <= Z.of_nat (length buffer) /\
  ~ writes (to_str_radix true x buffer radix) buffer (fun s => numeral true radix s (sval x)).
Proof.
  exists c256_64, (E64 (-1)), (repeat 0 257), 10. split; [exact valid_c256_64|]. split; [apply (wf_ofZ valid_c256_64)|].
  split; [vm_compute; reflexivity|]. split; [lia|]. split; [vm_compute; discriminate|].
  apply (C29_negative_never c256_64); [exact valid_c256_64|apply (wf_ofZ valid_c256_64)|vm_compute; reflexivity|lia|vm_compute; discriminate].
Qed.
Theorem C29_panics : forall (c : Cfg) (sg : bool) x buffer radix, Valid -> wf x -> (sg = true -> 0 <= sval x) ->
  (to_str_radix sg x buffer radix = Panic <-> ~ (2 <= radix <= 36 /\ BITS + (if sg then 1 else 0) <= Z.of_nat (length buffer))).
Proof.
  intros c sg x buffer radix HV Hx Hp. split.
  - intros E [Hr HL]. destruct (to_str_radix_ok HV sg x buffer radix) as (i & s & E' & _); auto; [|congruence].
    destruct sg; cbn [val]; auto. pose proof (uval_range HV x Hx). lia.
  - intros H. apply to_str_radix_panic. destruct sg; exact H.
Qed.
(** 48879 in base 16; 35 in base 36; 0; -1 in base 10 without overflow checks: "-/" *)
Example C29_ex1 : to_str_radix (c := c256_64) false (E64 48879) (repeat 7 258) 16 = Ok (repeat 7 254 ++ [66; 69; 69; 70], 254%nat)
  /\ to_str_radix (c := c256_32) true (E32 35) (repeat 0 257) 36 = Ok (repeat 0 256 ++ [90], 256%nat)
  /\ to_str_radix (c := c256_32) true (E32 0) (repeat 0 257) 2 = Ok (repeat 0 256 ++ [48], 256%nat)
  /\ to_str_radix (c := c256_64) false (E64 (2 ^ 256 - 1)) (repeat 0 256) 2 = Ok (repeat 49 256, 0%nat)
  /\ to_str_radix (c := c256_64) false (E64 5) (repeat 0 255) 10 = Panic.
Proof. vm_compute. auto. Qed.
Example C29_ex2 : to_str_radix (c := c256_64) true (E64 (-1)) (repeat 0 257) 10 = Panic
  /\ to_str_radix (c := c512_32) true (E512 (-1)) (repeat 0 513) 10 = Ok (repeat 0 511 ++ [45; 47], 511%nat).
Proof. vm_compute. auto. Qed.

(** ** C30: Display *)

Theorem C30_unsigned : forall (c : Cfg) x, Valid -> wf x -> prints (u_display x) (upper_numeral 10 (uval x)).
Proof. intros c x HV Hx. destruct (u_display_ok HV x Hx) as (s & E & C & U). exists s. split; auto. split; auto. Qed.
Theorem C30_signed : forall (c : Cfg) x f, Valid -> wf x ->
  prints (s_display x f) (fun s => exists d, upper_numeral 10 (Z.abs (sval x)) d /\
    s = (if sval x <? 0 then [45] else if sign_plus f then [43] else []) ++ d).
Proof.
  intros c x f HV Hx. unfold s_display. rewrite (s_signed_ok HV) by auto.
  destruct (u_display_ok HV (ofZ (Z.abs (sval x))) (wf_ofZ HV _)) as (s & E & C & U). rewrite E. cbn [bind option_map].
  rewrite (abs_uval HV) in C by auto. eexists. split; [reflexivity|]. exists s. split; [split; auto|reflexivity].
Qed.
(** no fractional or alphabetic characters: decimal digits only *)
Theorem C30_decimal : forall radix v s, radix <= 10 -> upper_numeral radix v s -> Forall (fun ch => 48 <= ch <= 57) s.
Proof.
  intros radix v s Hr [(_ & Hn & _) HU]. unfold numval in Hn. assert (exists a, horner radix a s = Some v) as [a Ha] by eauto. clear Hn.
  revert a Ha. induction s as [|ch t IH]; intros a Ha; constructor; inversion HU; subst; cbn [horner] in Ha.
  - rewrite digit_in_radix_le in Ha by auto. destruct (Z.leb_spec 48 ch); [|discriminate]. destruct (Z.ltb_spec ch (48 + radix)); [lia|discriminate].
  - destruct (digit_in radix ch); [|discriminate]. eauto.
Qed.
Definition plain : fmt := {| alternate := false; sign_plus := false; width := None; fill := [32] |}.
Definition alt10 : fmt := {| alternate := true; sign_plus := true; width := Some 10; fill := [32] |}.
(** [E64 48879] prints "48879", [-2^255] prints "-578…968" *)
Example C30_ex1 : u_display (c := c256_64) (E64 48879) = Ok (Some [52; 56; 56; 55; 57])
  /\ s_display (c := c256_32) (E32 (- 2 ^ 255)) plain = Ok (Some (45 :: dec (2 ^ 255)))
  /\ s_display (c := c256_64) (E64 42) alt10 = Ok (Some [43; 52; 50]) /\ u_display (c := c256_64) (E64 0) = Ok (Some [48]).
Proof. vm_compute. auto. Qed.

(** ** C31: binary, octal, hexadecimal *)

(** prefix, padding, digits *)
Definition layout (f : fmt) (tag : Z) (d s : list Z) : Prop :=
  s = (if alternate f then [48; tag] else []) ++
      (match width f with Some w => concat (repeat (fill f) (Z.to_nat (w - Z.of_nat (length d)))) | None => [] end) ++ d.
Theorem C31_binary : forall (c : Cfg) x f, Valid -> wf x ->
  prints (u_binary x f) (fun s => exists d, upper_numeral 2 (uval x) d /\ layout f 98 d s) /\
  prints (s_binary x f) (fun s => exists d, upper_numeral 2 (sval x mod 2 ^ BITS) d /\ layout f 98 d s).
Proof.
  intros c x f HV Hx. unfold s_binary. rewrite (s_wrapping_ok HV), (sval_mod HV) by auto.
  destruct (u_binary_octal_ok HV 2 98 x f ltac:(lia) Hx) as (d & E & C & U).
  split; (eexists; split; [exact E|exists d; split; [split; auto|reflexivity]]).
Qed.
Theorem C31_octal : forall (c : Cfg) x f, Valid -> wf x ->
  prints (u_octal x f) (fun s => exists d, upper_numeral 8 (uval x) d /\ layout f 111 d s) /\
  prints (s_octal x f) (fun s => exists d, upper_numeral 8 (sval x mod 2 ^ BITS) d /\ layout f 111 d s).
Proof.
  intros c x f HV Hx. unfold s_octal. rewrite (s_wrapping_ok HV), (sval_mod HV) by auto.
  destruct (u_binary_octal_ok HV 8 111 x f ltac:(lia) Hx) as (d & E & C & U).
  split; (eexists; split; [exact E|exists d; split; [split; auto|reflexivity]]).
Qed.
Theorem C31_lower_hex : forall (c : Cfg) x f, Valid -> wf x ->
  prints (u_lower_hex x f) (fun s => exists d, lower_numeral 16 (uval x) d /\ layout f 120 d s) /\
  prints (s_lower_hex x f) (fun s => exists d, lower_numeral 16 (sval x mod 2 ^ BITS) d /\ layout f 120 d s).
Proof.
  intros c x f HV Hx. unfold s_lower_hex. rewrite (s_wrapping_ok HV), (sval_mod HV) by auto.
  destruct (u_lower_hex_ok HV x f Hx) as (d & E & C & U).
  split; (eexists; split; [exact E|exists d; split; [split; auto|reflexivity]]).
Qed.
Theorem C31_upper_hex : forall (c : Cfg) x f, Valid -> wf x ->
  prints (u_upper_hex x f) (fun s => exists d, upper_numeral 16 (uval x) d /\ layout f 120 d s) /\
  prints (s_upper_hex x f) (fun s => exists d, upper_numeral 16 (sval x mod 2 ^ BITS) d /\ layout f 120 d s).
Proof.
  intros c x f HV Hx. unfold s_upper_hex. rewrite (s_wrapping_ok HV), (sval_mod HV) by auto.
  destruct (u_upper_hex_ok HV x f Hx) as (d & E & C & U).
  split; (eexists; split; [exact E|exists d; split; [split; auto|reflexivity]]).
Qed.
Example C31_ex1 : u_lower_hex (c := c256_64) (E64 48879) plain = Ok (Some [98; 101; 101; 102])
  /\ u_upper_hex (c := c256_64) (E64 48879) plain = Ok (Some [66; 69; 69; 70])
  /\ u_octal (c := c256_32) (E32 (2 ^ 32)) plain = Ok (Some (52 :: repeat 48 10))
  /\ s_lower_hex (c := c256_32) (E32 (-1)) plain = Ok (Some (repeat 102 64))
  /\ s_binary (c := c256_32) (E32 5) alt10 = Ok (Some ([48; 98] ++ repeat 32 7 ++ [49; 48; 49])).
Proof. vm_compute. auto. Qed.

(** ** C32: parsing inverts formatting *)

Section Aux.
Context {c : Cfg}.
Hypothesis HV : Valid.
Lemma upper_not_sign : forall radix v s sg, canonical radix v s -> numeral sg radix s v.
Proof. intros radix v s sg (H1 & H2 & _). exists s. auto. Qed.
Lemma parse_back_u : forall m x, wf x -> parses_u m (uval x) -> m = Ok (POk x).
Proof. intros m x Hx (r & -> & Hr & E). do 2 f_equal. apply (uval_inj HV); auto. Qed.
Lemma parse_back_s : forall m x, wf x -> parses_s m (sval x) -> m = Ok (POk x).
Proof. intros m x Hx (r & -> & Hr & E). do 2 f_equal. apply (sval_inj HV); auto. Qed.
Lemma canonical_not_sign : forall radix v s, canonical radix v s -> s <> [43] /\ s <> [45].
Proof. intros radix v s (_ & H & _). split; intros ->; discriminate. Qed.
End Aux.
Theorem C32_display_unsigned : forall (c : Cfg) x small, Valid -> wf x ->
  prints (u_display x) (fun s => from_str small false s = Ok (POk x)).
Proof.
  intros c x small HV Hx. destruct (u_display_ok HV x Hx) as (s & E & C & U). exists s. split; auto.
  apply (parse_back_u HV); auto. apply C51_unsigned; auto using upper_bytes. split; [apply upper_not_sign; auto|].
  exact (uval_range HV x Hx).
Qed.
Theorem C32_display_signed : forall (c : Cfg) x f small, Valid -> wf x ->
  prints (s_display x f) (fun s => from_str small true s = Ok (POk x)).
Proof.
  intros c x f small HV Hx. destruct (C30_signed c x f HV Hx) as (s & E & d & [C U] & Hs). exists s. split; auto.
  apply (parse_back_s HV); auto.
  assert (HB : bytes s).
  { rewrite Hs. apply Forall_app. split; [|apply upper_bytes; auto]. destruct (sval x <? 0); [|destruct (sign_plus f)]; repeat constructor; discriminate. }
  apply C51_complete_signed; auto; [|exact (sval_range HV x Hx)].
  exists d. destruct C as (C1 & C2 & _). split; auto. destruct (Z.ltb_spec (sval x) 0).
  - right. split; auto. split; auto. rewrite C2. f_equal. lia.
  - left. split; [destruct (sign_plus f); auto|]. rewrite C2. f_equal. lia.
Qed.
Theorem C32_radix_unsigned : forall (c : Cfg) x buffer radix, Valid -> wf x -> 2 <= radix <= 36 ->
  BITS <= Z.of_nat (length buffer) ->
  writes (to_str_radix false x buffer radix) buffer (fun s => from_str_radix false s radix = Ok (POk x)).
Proof.
  intros c x buffer radix HV Hx Hr HL. destruct (C29_unsigned c x buffer radix HV Hx Hr HL) as (i & s & E & L & [C U]).
  exists i, s. split; auto. split; auto. apply (parse_back_u HV); auto.
  destruct (canonical_not_sign radix (uval x) s C). apply C27_unsigned; auto using upper_bytes. split; [apply upper_not_sign; auto|].
  exact (uval_range HV x Hx).
Qed.
Theorem C32_radix_signed_nonnegative : forall (c : Cfg) x buffer radix, Valid -> wf x -> 0 <= sval x -> 2 <= radix <= 36 ->
  BITS + 1 <= Z.of_nat (length buffer) ->
  writes (to_str_radix true x buffer radix) buffer (fun s => from_str_radix true s radix = Ok (POk x)).
Proof.
  intros c x buffer radix HV Hx Hp Hr HL. destruct (C29_signed_nonnegative c x buffer radix HV Hx Hp Hr HL) as (i & s & E & L & [C U]).
  exists i, s. split; auto. split; auto. apply (parse_back_s HV); auto.
  apply C27_complete_signed; auto using upper_bytes; [apply upper_not_sign; auto|exact (sval_range HV x Hx)].
Qed.
(** hexadecimal output, either case, read back in base 16 *)
Theorem C32_hex : forall (c : Cfg) x f, Valid -> wf x -> alternate f = false -> width f = None ->
  prints (u_lower_hex x f) (fun s => from_str_radix false s 16 = Ok (POk x)) /\
  prints (u_upper_hex x f) (fun s => from_str_radix false s 16 = Ok (POk x)).
Proof.
  intros c x f HV Hx Ha Hw.
  assert (HL : forall tag d s, layout f tag d s -> s = d) by (intros tag d s; unfold layout; rewrite Ha, Hw; auto).
  assert (HP : forall d, bytes d -> canonical 16 (uval x) d -> from_str_radix false d 16 = Ok (POk x)).
  { intros d Hb C. apply (parse_back_u HV); auto. destruct (canonical_not_sign 16 (uval x) d C).
    apply C27_unsigned; auto; [lia|]. split; [apply upper_not_sign; auto|]. exact (uval_range HV x Hx). }
  split.
  - destruct (proj1 (C31_lower_hex c x f HV Hx)) as (s & E & d & [C U] & L). apply HL in L. subst.
    exists d. split; auto. apply HP; auto using lower_bytes.
  - destruct (proj1 (C31_upper_hex c x f HV Hx)) as (s & E & d & [C U] & L). apply HL in L. subst.
    exists d. split; auto. apply HP; auto using upper_bytes.
Qed.
(** negative signed values do not survive [to_str_radix] *)
Theorem C32_radix_signed_refuted : exists (c : Cfg) x buffer s, Valid /\ wf x /\ BITS + 1 <= Z.of_nat (length buffer) /\
  to_str_radix true x buffer 10 = Ok (firstn (length buffer - 2) buffer ++ s, (length buffer - 2)%nat) /\
  from_str_radix true s 10 <> Ok (POk x).
Proof.
  exists c512_32, (E512 (-210)), (repeat 0 513), [45; 94]. split; [exact valid_c512_32|]. split; [apply (wf_ofZ valid_c512_32)|].
  split; [vm_compute; discriminate|]. split; [vm_compute; reflexivity|]. vm_compute. discriminate.
Qed.
Example C32_ex1 : from_str (c := c256_64) false true (45 :: dec (2 ^ 255)) = Ok (POk (E64 (- 2 ^ 255)))
  /\ s_display (c := c256_64) (E64 (- 2 ^ 255)) plain = Ok (Some (45 :: dec (2 ^ 255))).
Proof. vm_compute. auto. Qed.

(** ** C52: minimum width *)

(** The standard layout of an integer: padding up to the width, then prefix and
    digits (right-aligned, the default). *)
Definition right_aligned (f : fmt) (body s : list Z) : Prop :=
  s = (match width f with Some w => concat (repeat (fill f) (Z.to_nat (w - Z.of_nat (length body)))) | None => [] end) ++ body.
Theorem C52_hex_partial : forall (c : Cfg) x f, Valid -> wf x -> alternate f = false \/ width f = None ->
  prints (u_lower_hex x f) (fun s => exists d, lower_numeral 16 (uval x) d /\
    right_aligned f ((if alternate f then [48; 120] else []) ++ d) s) /\
  prints (u_upper_hex x f) (fun s => exists d, upper_numeral 16 (uval x) d /\
    right_aligned f ((if alternate f then [48; 120] else []) ++ d) s).
Proof.
  intros c x f HV Hx H. split.
  - destruct (proj1 (C31_lower_hex c x f HV Hx)) as (s & E & d & C & L). exists s. split; auto. exists d. split; auto.
    unfold layout, right_aligned in *. destruct H as [H|H]; rewrite H in *; auto.
  - destruct (proj1 (C31_upper_hex c x f HV Hx)) as (s & E & d & C & L). exists s. split; auto. exists d. split; auto.
    unfold layout, right_aligned in *. destruct H as [H|H]; rewrite H in *; auto.
Qed.
Theorem C52_binary_octal_partial : forall (c : Cfg) x f, Valid -> wf x -> alternate f = false \/ width f = None ->
  prints (u_binary x f) (fun s => exists d, upper_numeral 2 (uval x) d /\
    right_aligned f ((if alternate f then [48; 98] else []) ++ d) s) /\
  prints (u_octal x f) (fun s => exists d, upper_numeral 8 (uval x) d /\
    right_aligned f ((if alternate f then [48; 111] else []) ++ d) s).
Proof.
  intros c x f HV Hx H. split.
  - destruct (proj1 (C31_binary c x f HV Hx)) as (s & E & d & C & L). exists s. split; auto. exists d. split; auto.
    unfold layout, right_aligned in *. destruct H as [H|H]; rewrite H in *; auto.
  - destruct (proj1 (C31_octal c x f HV Hx)) as (s & E & d & C & L). exists s. split; auto. exists d. split; auto.
    unfold layout, right_aligned in *. destruct H as [H|H]; rewrite H in *; auto.
Qed.
(** [{:#10x}] of 42 prints "0x        2a", of 12 characters *)
Theorem C52_alternate_refuted : exists (c : Cfg) x f, Valid /\ wf x /\
  u_lower_hex x f = Ok (Some ([48; 120] ++ repeat 32 8 ++ [50; 97])) /\
  forall s, right_aligned f [48; 120; 50; 97] s -> s = repeat 32 6 ++ [48; 120; 50; 97].
Proof.
  exists c256_64, (E64 42), alt10. split; [exact valid_c256_64|]. split; [apply (wf_ofZ valid_c256_64)|].
  split; [vm_compute; reflexivity|]. intros s ->. vm_compute. reflexivity.
Qed.
(** [Display] ignores the width *)
Theorem C52_display_refuted : exists (c : Cfg) x f, Valid /\ wf x /\
  s_display x f = Ok (Some [45; 52; 50]) /\ width f = Some 10.
Proof.
  exists c256_64, (E64 (-42)), alt10. split; [exact valid_c256_64|]. split; [apply (wf_ofZ valid_c256_64)|].
  split; vm_compute; reflexivity.
Qed.
Definition pad8 : fmt := {| alternate := false; sign_plus := false; width := Some 8; fill := [42] |}.
Example C52_ex1 : u_lower_hex (c := c256_64) (E64 42) pad8 = Ok (Some (repeat 42 6 ++ [50; 97]))
  /\ u_octal (c := c256_64) (E64 (8 ^ 9)) pad8 = Ok (Some (49 :: repeat 48 9)).
Proof. vm_compute. auto. Qed.

(** ** C53: exponent form *)

(** the first digit, a point, the other digits, the number of other digits *)
Theorem C53_unsigned : forall (c : Cfg) tag x, Valid -> wf x ->
  prints (u_exp tag x) (fun s => exists d t e, s = d :: 46 :: t ++ tag :: e /\
    upper_numeral 10 (uval x) (d :: t) /\ upper_numeral 10 (Z.of_nat (length t)) e).
Proof.
  intros c tag x HV Hx. destruct (u_exp_ok HV tag x Hx) as (d & t & e & E & C & U & C' & U').
  eexists. split; [exact E|]. exists d, t, e. split; auto. split; split; auto.
Qed.
Theorem C53_signed : forall (c : Cfg) tag x f, Valid -> wf x ->
  prints (s_exp tag x f) (fun s => exists d t e,
    s = (if sval x <? 0 then [45] else if sign_plus f then [43] else []) ++ d :: 46 :: t ++ tag :: e /\
    upper_numeral 10 (Z.abs (sval x)) (d :: t) /\ upper_numeral 10 (Z.of_nat (length t)) e).
Proof.
  intros c tag x f HV Hx. unfold s_exp. rewrite (s_signed_ok HV) by auto.
  destruct (u_exp_ok HV tag (ofZ (Z.abs (sval x))) (wf_ofZ HV _)) as (d & t & e & E & C & U & C' & U').
  rewrite (abs_uval HV) in C by auto. rewrite E. cbn [bind option_map]. eexists. split; [reflexivity|].
  exists d, t, e. split; auto. split; split; auto.
Qed.
(** one-digit numbers get a point with nothing after it: "5.e0" *)
Theorem C53_point_refuted : exists (c : Cfg) x, Valid /\ wf x /\ u_exp 101 x = Ok (Some [53; 46; 101; 48]).
Proof.
  exists c256_64, (E64 5). split; [exact valid_c256_64|]. split; [apply (wf_ofZ valid_c256_64)|]. vm_compute. reflexivity.
Qed.
Example C53_ex1 : s_exp (c := c256_64) 101 (E64 (-1234)) plain = Ok (Some [45; 49; 46; 50; 51; 52; 101; 51])
  /\ s_exp (c := c256_64) 69 (E64 (10 ^ 12)) alt10 = Ok (Some ([43; 49; 46] ++ repeat 48 12 ++ [69; 49; 50])).
Proof. vm_compute. auto. Qed.

(** ** Assumptions (each must print "Closed under the global context") *)

Print Assumptions C29_unique.
Print Assumptions C29_unsigned.
Print Assumptions C29_signed_nonnegative.
Print Assumptions C29_negative.
Print Assumptions C29_negative_never.
Print Assumptions C29_negative_refuted.
Print Assumptions C29_panics.
Print Assumptions C30_unsigned.
Print Assumptions C30_signed.
Print Assumptions C30_decimal.
Print Assumptions C31_binary.
Print Assumptions C31_octal.
Print Assumptions C31_lower_hex.
Print Assumptions C31_upper_hex.
Print Assumptions C32_display_unsigned.
Print Assumptions C32_display_signed.
Print Assumptions C32_radix_unsigned.
Print Assumptions C32_radix_signed_nonnegative.
Print Assumptions C32_hex.
Print Assumptions C32_radix_signed_refuted.
Print Assumptions C52_hex_partial.
Print Assumptions C52_binary_octal_partial.
Print Assumptions C52_alternate_refuted.
Print Assumptions C52_display_refuted.
Print Assumptions C53_unsigned.
Print Assumptions C53_signed.
Print Assumptions C53_point_refuted.
