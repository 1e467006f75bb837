(** * Properties: client programs that read and write text (C100)

    LangText.v defines the programs and their meaning over the integers and over
    texts, PLangText.v the two ways to read and print ([text_corrected],
    [text_published]) and the lines and numbers on which the latter is not claimed
    to be right ([text_defects]). *)

Require Import ZArith List Bool Lia.
From Verif Require Import Prim Spec Facts MCore PCore PWide PRet MArith PArith PArith2 TextSpec PParse PParse2 PropsParse
  MWrite PWrite PWrite2 PropsWrite PropsFix2 Lang PLang PLang2 PropsLang LangText PLangText.
Import ListNotations.
Local Open Scope Z_scope.

(** The programs that need no condition: unsigned numbers are read with [parse],
    nothing is printed in exponent form, and only unsigned numbers in a radix. *)
Definition plain_style (sg : bool) (o : style) : Prop :=
  match o with LowerExp | UpperExp => False | InRadix _ => sg = false | _ => True end.
Fixpoint tplain (p : tprog) : Prop :=
  match p with
  | TDo p => plain p
  | TSeq p q => tplain p /\ tplain q
  | TIf b p q => plain_b b /\ tplain p /\ tplain q
  | TWhile b p => plain_b b /\ tplain p
  | TRead sg radix _ p q r => (sg = false /\ radix = None) /\ tplain p /\ tplain q /\ tplain r
  | TPrint sg o e => plain_style sg o /\ plain_e e
  end.

Section Aux.
Context {c : Cfg}.
Lemma sure_t : forall fuel p z, decided (zrun BITS chk sure text_sure fuel p z).
Proof.
  induction fuel as [|fuel IH]; intros p z; [discriminate|].
  destruct p as [p|p q|b p q|b p|g radix i p q r|g o e]; cbn [zrun].
  - apply then_decided; [apply sure_p|]. discriminate.
  - apply then_decided; [apply IH|]. intros z'. apply IH.
  - apply then_decided; [apply sure_b|]. intros []; apply IH.
  - apply then_decided; [apply sure_b|]. intros []; [|discriminate]. apply then_decided; [apply IH|]. intros z'. apply IH.
  - destruct (input z) as [|l ls]; [apply IH|]. apply then_decided; [|intros []; apply IH]. cbn [unless text_sure bad_read].
    unfold zread. destruct (radix_ok _); discriminate.
  - apply then_decided; [apply sure_e|]. intros v. apply then_decided; [|discriminate]. cbn [unless text_sure bad_print].
    destruct o; cbn [zprint]; try discriminate. destruct (radix_ok radix); discriminate.
Qed.
Lemma doubt_t : forall D E fuel p z, refines (zrun BITS chk D E fuel p z) (zrun BITS chk sure text_sure fuel p z).
Proof.
  intros D E. induction fuel as [|fuel IH]; intros p z; [apply refl_refines|].
  destruct p as [p|p q|b p q|b p|g radix i p q r|g o e]; cbn [zrun].
  - apply then_refines; [apply doubt_p|]. intros v. apply refl_refines.
  - apply then_refines; [apply IH|]. intros z'. apply IH.
  - apply then_refines; [apply doubt_b|]. intros []; apply IH.
  - apply then_refines; [apply doubt_b|]. intros []; [|apply refl_refines]. apply then_refines; [apply IH|]. intros z'. apply IH.
  - destruct (input z) as [|l ls]; [apply IH|]. apply then_refines; [apply unless_refines|]. intros []; apply IH.
  - apply then_refines; [apply doubt_e|]. intros v. apply then_refines; [apply unless_refines|]. intros l. apply refl_refines.
Qed.
Lemma plain_t_eq : forall fuel p z, tplain p ->
  zrun BITS chk known_defects text_defects fuel p z = zrun BITS chk sure text_sure fuel p z.
Proof.
  induction fuel as [|fuel IH]; intros p z P; [reflexivity|].
  destruct p as [p|p q|b p q|b p|g radix i p q r|g o e]; cbn [zrun tplain] in *.
  - apply then_eq; [apply plain_p_eq; auto|]. reflexivity.
  - apply then_eq; [apply IH; tauto|]. intros z'. apply IH; tauto.
  - apply then_eq; [apply plain_b_eq; tauto|]. intros []; apply IH; tauto.
  - apply then_eq; [apply plain_b_eq; tauto|]. intros []; [|reflexivity]. apply then_eq; [apply IH; tauto|]. intros z'. apply IH; exact P.
  - destruct (input z) as [|l ls]; [apply IH; tauto|]. destruct P as ((-> & ->) & P). apply then_eq; [reflexivity|]. intros []; apply IH; tauto.
  - apply then_eq; [apply plain_e_eq; tauto|]. intros v. apply then_eq; [|reflexivity].
    destruct P as (P & _). destruct o; cbn [plain_style bad_print text_defects unless text_sure] in *; try contradiction; try subst; reflexivity.
Qed.
Lemma more_fuel_t : forall M T fuel p s, trun M T fuel p s <> OutOfFuel -> forall k, trun M T (fuel + k) p s = trun M T fuel p s.
Proof.
  assert (B : forall {A B} (m m' : res A) (f g : A -> res B), (m <> OutOfFuel -> m' = m) -> (forall a, f a <> OutOfFuel -> g a = f a) -> bind m f <> OutOfFuel -> bind m' g = bind m f).
  { intros A B m m' f g H1 H2 H. destruct m as [a| |]; cbn [bind] in *; [rewrite H1 by discriminate; cbn; apply H2; auto|rewrite H1 by discriminate; reflexivity|contradiction]. }
  intros M T. induction fuel as [|fuel IH]; intros p s H k; [contradiction|].
  destruct p as [p|p q|b p q|b p|g radix i p q r|g o e]; cbn [trun plus] in *.
  - revert H. apply B; auto. intros H. apply more_fuel; auto.
  - revert H. apply B; intros; apply IH; auto.
  - revert H. apply B; auto. intros []; intros; apply IH; auto.
  - revert H. apply B; auto. intros []; [|auto]. apply B; intros; apply IH; auto.
  - destruct (input s) as [|l ls]; [apply IH; auto|]. revert H. apply B; auto. intros []; intros; apply IH; auto.
  - reflexivity.
Qed.
End Aux.

(** ** C100 *)

(** The two functions on texts in the meaning are the ones of TextSpec.v. *)
Theorem C100_reading : forall sg radix s v, reading sg radix s = Some v <-> numeral sg radix s v.
Proof. exact reading_ok. Qed.
Theorem C100_number_text : forall radix v s, 2 <= radix <= 36 -> 0 <= v -> (s = number_text radix v <-> upper_numeral radix v s).
Proof. intros radix v s Hr Hv. split; [intros ->; apply number_text_ok; auto|apply text_unique; auto]. Qed.

(** With the corrections, a program does what it means: the lines it prints, the
    values it leaves, the input it has not read, the panics and the endless runs. *)
Theorem C100_corrected : forall (c : Cfg) small fuel p z s, Valid -> tproper p -> same_state z s ->
  meets same_state (zrun BITS chk sure text_sure fuel p z) (trun corrected (text_corrected small) fuel p s).
Proof.
  intros c small fuel p z s HV. apply trun_meets; [apply (corrected_faithful HV)|apply (text_corrected_faithful HV)].
Qed.
(** ... and no program is left out. *)
Theorem C100_decided : forall (c : Cfg) fuel p z, zrun BITS chk sure text_sure fuel p z <> Unknown.
Proof. intros c. apply sure_t. Qed.
(** As published, it does so unless some operation meets an input on the lists. *)
Theorem C100_published : forall (c : Cfg) small fuel p z s, Valid -> tproper p -> same_state z s ->
  zrun BITS chk known_defects text_defects fuel p z <> Unknown ->
  zrun BITS chk known_defects text_defects fuel p z = zrun BITS chk sure text_sure fuel p z /\
  meets same_state (zrun BITS chk sure text_sure fuel p z) (trun published (text_published small) fuel p s).
Proof.
  intros c small fuel p z s HV P S H. destruct (doubt_t known_defects text_defects fuel p z) as [E|E]; [contradiction|]. split; [exact E|]. rewrite <- E.
  apply trun_meets; auto; [apply (published_faithful HV)|apply (text_published_faithful HV)].
Qed.
(** The list is exact: off it reading and printing do what is meant, on it they do not. *)
Theorem C100_list : forall (c : Cfg) small sg, Valid ->
  (forall radix l, PParse.bytes l -> (bad_read text_defects sg radix l = false <->
     meets (opt_rel (stands sg)) (zread BITS sg radix l) (run_read (text_published small) sg radix l))) /\
  (forall o x, wf x -> (bad_print text_defects sg o (number sg x) = false <->
     meets eq (zprint BITS o (number sg x)) (run_print (text_published small) sg o x))).
Proof.
  intros c small sg HV. split.
  - intros radix l Hb. apply (list_read HV); auto.
  - intros o x Hx. apply (list_print HV); auto.
Qed.
(** Plain programs need no condition. *)
Theorem C100_plain : forall (c : Cfg) small fuel p z s, Valid -> tproper p -> tplain p -> same_state z s ->
  meets same_state (zrun BITS chk sure text_sure fuel p z) (trun published (text_published small) fuel p s).
Proof.
  intros c small fuel p z s HV P Q S. rewrite <- plain_t_eq by auto. apply trun_meets; auto; [apply (published_faithful HV)|apply (text_published_faithful HV)].
Qed.
(** Text in, text out: one width, two limb sizes, two pointer sizes, the same lines. *)
Definition same_lines (c1 c2 : Cfg) (s1 s2 : state (list Z)) : Prop :=
  same_values c1 c2 (vars s1) (vars s2) /\ input s1 = input s2 /\ output s1 = output s2.
Theorem C100_limb_size : forall (c1 c2 : Cfg) small1 small2 fuel p s1 s2, @Valid c1 -> @Valid c2 -> @BITS c1 = @BITS c2 -> @chk c1 = @chk c2 ->
  tproper p -> same_lines c1 c2 s1 s2 -> Forall PParse.bytes (input s1) ->
  alike (same_lines c1 c2) (trun (@corrected c1) (@text_corrected c1 small1) fuel p s1) (trun (@corrected c2) (@text_corrected c2 small2) fuel p s2) /\
  (tplain p -> alike (same_lines c1 c2) (trun (@published c1) (@text_published c1 small1) fuel p s1) (trun (@published c2) (@text_published c2 small2) fuel p s2)).
Proof.
  intros c1 c2 m1 m2 fuel p s1 s2 V1 V2 EB EC P (SV & SI & SO) Hb. set (z := State (fun sg i => @number c1 sg (vars s1 sg i)) (input s1) (output s1)).
  assert (S1 : @same_state c1 z s1).
  { split; [|split; [reflexivity|split; [reflexivity|exact Hb]]]. intros sg i. split; [apply SV|reflexivity]. }
  assert (S2 : @same_state c2 z s2).
  { split; [|split; [exact SI|split; [exact SO|rewrite <- SI; exact Hb]]]. intros sg i. destruct (SV sg i) as (A & B & E). split; [exact B|symmetry; exact E]. }
  assert (K : forall m1 m2, meets (@same_state c1) (zrun (@BITS c1) (@chk c1) sure text_sure fuel p z) m1 -> meets (@same_state c2) (zrun (@BITS c1) (@chk c1) sure text_sure fuel p z) m2 ->
    alike (same_lines c1 c2) m1 m2).
  { intros n1 n2 H1 H2. pose proof (@sure_t c1 fuel p z) as D. unfold decided in D. destruct (zrun _ _ _ _ _ _ _) as [z'| | |]; cbn [meets] in *; [|subst; exact I|subst; exact I|contradiction].
    destruct H1 as (a & -> & (A1 & A2 & A3 & _)), H2 as (b & -> & (B1 & B2 & B3 & _)). split; [|split; congruence].
    intros sg i. destruct (A1 sg i) as (X1 & X2), (B1 sg i) as (Y1 & Y2). split; [exact X1|]. split; [exact Y1|]. congruence. }
  split.
  - apply K; [apply C100_corrected; auto|]. rewrite EB, EC. apply C100_corrected; auto.
  - intros Q. apply K; [apply C100_plain; auto|]. rewrite EB, EC. apply C100_plain; auto.
Qed.
(** What is printed can be read back: every number of the type, in decimal or any
    radix; in binary, octal and hexadecimal as an unsigned number. *)
Theorem C100_echo : forall bits sg v, 1 <= bits -> inside bits sg v = true ->
  (exists l, zprint bits Decimal v = Done l /\ zread bits sg None l = Done (Some v)) /\
  (forall r, 2 <= r <= 36 -> exists l, zprint bits (InRadix r) v = Done l /\ zread bits sg (Some r) l = Done (Some v)) /\
  (forall o r, In (o, r) [(Binary, 2); (Octal, 8); (LowerHex, 16); (UpperHex, 16)] ->
     exists l, zprint bits o v = Done l /\ zread bits false (Some r) l = Done (Some (v mod 2 ^ bits))).
Proof.
  intros bits sg v Hb Hi.
  assert (T : forall r, 2 <= r <= 36 -> reading sg r (minus v ++ number_text r (Z.abs v)) = Some v).
  { intros r Hr. apply reading_ok. destruct (number_text_ok r (Z.abs v) Hr (Z.abs_nonneg v)) as ((Ne & N & _) & _). exists (number_text r (Z.abs v)). split; auto.
    unfold minus. destruct (Z.ltb_spec v 0); cbn [app].
    - right. destruct sg; [|cbn [inside] in Hi; apply andb_true_iff in Hi; destruct Hi as (Hi & _); apply Z.leb_le in Hi; lia]. split; auto. split; auto. rewrite N. f_equal. lia.
    - left. split; auto. rewrite N. f_equal. lia. }
  split; [|split].
  - eexists. split; [reflexivity|]. unfold zread. change (radix_ok 10) with true. cbv iota. rewrite T by lia. rewrite Hi. reflexivity.
  - intros r Hr. cbn [zprint]. unfold zread. replace (radix_ok r) with true by (symmetry; apply radix_ok_spec; auto). eexists. split; [reflexivity|]. rewrite T by auto. rewrite Hi. reflexivity.
  - intros o r HI. pose proof (Z.mod_pos_bound v (2 ^ bits) ltac:(apply Z.pow_pos_nonneg; lia)) as M.
    assert (IN : inside bits false (v mod 2 ^ bits) = true) by (cbn [inside]; apply andb_true_iff; rewrite Z.leb_le, Z.ltb_lt; exact M).
    assert (R : forall r s, numval r s = Some (v mod 2 ^ bits) -> s <> [] -> radix_ok r = true -> zread bits false (Some r) s = Done (Some (v mod 2 ^ bits))).
    { intros r' s N Ne HR. unfold zread. rewrite HR. assert (reading false r' s = Some (v mod 2 ^ bits)) as -> by (apply reading_ok; exists s; auto). rewrite IN. reflexivity. }
    assert (U : forall r, 2 <= r <= 36 -> upper_numeral r (v mod 2 ^ bits) (number_text r (v mod 2 ^ bits))) by (intros; apply number_text_ok; lia).
    cbn [In] in HI. destruct HI as [E|[E|[E|[E|[]]]]]; inversion E; subst; cbn [zprint]; eexists; (split; [reflexivity|]); apply R; try reflexivity.
    1,2: apply (U 2); lia. 1,2: apply (U 8); lia.
    + change lower_case with to_lower. unfold numval. rewrite horner_lower by (apply (U 16); lia). apply (U 16). lia.
    + destruct (U 16 ltac:(lia)) as ((Ne & _) & _). intros H. apply map_eq_nil in H. contradiction.
    + apply (U 16). lia.
    + apply (U 16). lia.
Qed.
Theorem C100_fuel : forall M T fuel p s, trun M T fuel p s <> OutOfFuel -> forall k, trun M T (fuel + k) p s = trun M T fuel p s.
Proof. exact more_fuel_t. Qed.

(** *** Examples *)

(** Adds up the lines that are decimal numbers, skips the others, and prints the
    sum in decimal and hexadecimal. *)
Definition sum_up : tprog :=
  TSeq (TDo (PSet false 1 (n 1)))
  (TSeq (TWhile (BEq false (v 1) (n 1))
    (TRead false None 0 (TDo (PSet false 2 (EOp2 false Add (v 2) (v 0)))) (TDo PSkip) (TDo (PSet false 1 (n 0)))))
  (TSeq (TPrint false Decimal (v 2)) (TPrint false LowerHex (v 2)))).
(** the lines "40", "x", "+2", "2^200" in decimal *)
Definition four_lines : list line := [[52; 48]; [120]; [43; 50]; number_text 10 (2 ^ 200)].
Definition begin {c : Cfg} (ls : list line) : state (list Z) := State start ls [].
Definition zbegin (ls : list line) : state Z := State zstart ls [].
Definition lines_of (m : res (state (list Z))) : res (list line) := let* s := m in Ok (output s).
Definition zlines (m : outcome (state Z)) : outcome (list line) := and_then m (fun s => Done (output s)).
Lemma begin_same : forall (c : Cfg) ls, Valid -> Forall PParse.bytes ls -> same_state (zbegin ls) (begin ls).
Proof. intros c ls HV Hb. split; [apply start_same; auto|]. split; [reflexivity|]. split; [reflexivity|exact Hb]. Qed.
Lemma bytes_check : forall ls, forallb (forallb (fun b => (0 <=? b) && (b <? 2 ^ 8))) ls = true -> Forall PParse.bytes ls.
Proof.
  intros ls H. rewrite forallb_forall in H. apply Forall_forall. intros l Hl. specialize (H l Hl). rewrite forallb_forall in H. apply Forall_forall.
  intros b Hb. specialize (H b Hb). apply andb_true_iff in H. rewrite Z.leb_le, Z.ltb_lt in H. exact H.
Qed.
Example C100_ex1 : tproper sum_up /\ tplain sum_up /\ same_state (c := c256_64) (zbegin four_lines) (@begin c256_64 four_lines) /\
  let out := [number_text 10 (2 ^ 200 + 42); [49] ++ repeat 48 48 ++ [50; 97]] in
  zlines (zrun 256 true sure text_sure 40 sum_up (zbegin four_lines)) = Done out /\
  lines_of (trun (@corrected c256_64) (@text_corrected c256_64 true) 40 sum_up (@begin c256_64 four_lines)) = Ok out /\
  lines_of (trun (@published c256_32) (@text_published c256_32 false) 40 sum_up (@begin c256_32 four_lines)) = Ok out.
Proof.
  split; [cbn; repeat split; lia|]. split; [cbn; repeat split; lia|]. split.
  - apply begin_same; [apply valid_c256_64|]. apply bytes_check. vm_compute. reflexivity.
  - vm_compute. repeat split.
Qed.
Example C100_ex1_same : same_lines c256_64 c256_32 (@begin c256_64 four_lines) (@begin c256_32 four_lines).
Proof. split; [apply C87_ex5|split; reflexivity]. Qed.

(** Echoes a signed number in decimal, in base 16 and in exponent form. *)
Definition echo : tprog := TRead true (Some 10) 0
  (TSeq (TPrint true Decimal (EVar true 0)) (TSeq (TPrint true (InRadix 16) (EVar true 0)) (TPrint true LowerExp (EVar true 0))))
  (TPrint false Decimal (n 0)) (TDo PSkip).
(** "-210": the published [to_str_radix] prints "-" and one character *)
Example C100_ex2 : tproper echo /\
  zrun 512 false (@known_defects c512_32) (@text_defects c512_32) 9 echo (zbegin [[45; 50; 49; 48]]) = Unknown /\
  lines_of (trun (@corrected c512_32) (@text_corrected c512_32 true) 9 echo (@begin c512_32 [[45; 50; 49; 48]])) =
    Ok [[45; 50; 49; 48]; [45; 68; 50]; [45; 50; 46; 49; 48; 101; 50]] /\
  lines_of (trun (@published c512_32) (@text_published c512_32 true) 9 echo (@begin c512_32 [[45; 50; 49; 48]])) =
    Ok [[45; 50; 49; 48]; [45; 101]; [45; 50; 46; 49; 48; 101; 50]].
Proof. split; [cbn; repeat split; lia|]. vm_compute. repeat split. Qed.
(** "1234" is on neither list; "+" alone is a number for the published code; a number
    just below the smallest is read as a large one *)
Example C100_ex3 :
  zlines (zrun 256 true (@known_defects c256_64) (@text_defects c256_64) 9 echo (zbegin [[49; 50; 51; 52]])) =
    Done [[49; 50; 51; 52]; [52; 68; 50]; [49; 46; 50; 51; 52; 101; 51]] /\
  lines_of (trun (@published c256_64) (@text_published c256_64 true) 9 echo (@begin c256_64 [[49; 50; 51; 52]])) =
    Ok [[49; 50; 51; 52]; [52; 68; 50]; [49; 46; 50; 51; 52; 101; 51]] /\
  lines_of (trun (@corrected c256_64) (@text_corrected c256_64 true) 9 echo (@begin c256_64 [[43]])) = Ok [[48]] /\
  lines_of (trun (@published c256_64) (@text_published c256_64 true) 9 echo (@begin c256_64 [[43]])) = Ok [[48]; [48]; [48; 46; 101; 48]] /\
  let low := 45 :: number_text 10 (2 ^ 255 + 2) in
  @bad_read (@text_defects c256_64) true (Some 10) low = true /\
  lines_of (trun (@corrected c256_64) (@text_corrected c256_64 true) 9 echo (@begin c256_64 [low])) = Ok [[48]] /\
  (let* o := lines_of (trun (@published c256_64) (@text_published c256_64 true) 9 echo (@begin c256_64 [low])) in Ok (hd [] o)) = Ok (number_text 10 (2 ^ 255 - 2)).
Proof. vm_compute. repeat split. Qed.
(** A panic foreseen (radix 1), an endless loop, and a longer look at a finished run. *)
Example C100_ex4 : let bad := TRead false (Some 1) 0 (TDo PSkip) (TDo PSkip) (TDo PSkip) in
  zrun 256 true sure text_sure 9 bad (zbegin [[49]]) = Panicked /\
  trun (@published c256_64) (@text_published c256_64 true) 9 bad (@begin c256_64 [[49]]) = Panic /\
  trun (@published c256_64) (@text_published c256_64 true) 50 (TWhile (BEq false (n 1) (n 1)) (TDo PSkip)) (@begin c256_64 []) = OutOfFuel /\
  lines_of (trun (@published c256_64) (@text_published c256_64 true) (40 + 7) sum_up (@begin c256_64 four_lines)) =
  lines_of (trun (@published c256_64) (@text_published c256_64 true) 40 sum_up (@begin c256_64 four_lines)).
Proof. vm_compute. repeat split. Qed.
Example C100_ex5 : reading true 16 [45; 70; 102] = Some (-255) /\ reading false 16 [45; 70] = None /\ reading true 10 [43] = None /\
  number_text 36 1295 = [90; 90] /\ number_text 2 0 = [48] /\ inside 256 true (- 2 ^ 255) = true.
Proof. vm_compute. repeat split. Qed.

(** ** Assumptions (each must print "Closed under the global context") *)

Print Assumptions C100_reading.
Print Assumptions C100_number_text.
Print Assumptions C100_corrected.
Print Assumptions C100_decided.
Print Assumptions C100_published.
Print Assumptions C100_list.
Print Assumptions C100_plain.
Print Assumptions C100_limb_size.
Print Assumptions C100_echo.
Print Assumptions C100_fuel.
