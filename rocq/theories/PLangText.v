(** * Client programs with text: the operations of the code (for C100)

    LangText.v defines the programs and their meaning.  Here: reading and printing
    with the corrections of MFix2.v and MFix3.v ([text_corrected]) and as published
    ([text_published]), the lines and numbers on which the latter are wrong
    ([text_defects]), and the proofs. *)

Require Import ZArith List Bool Lia.
From Verif Require Import Prim Spec Facts MCore PCore PWide PRet MArith PArith PArith2 MScalar MParse TextSpec PParse PParse2 PropsParse
  MWrite PWrite PWrite2 PropsWrite PropsReadAll MFix MFix2 PFixScalar2 PropsFix2 MFix3 PropsFix3 Lang PLang PLang2 PropsLang LangText.
Import ListNotations.
Local Open Scope Z_scope.

(** ** Texts *)

(** [number_text] writes numerals *)
Lemma digits_before_ok : forall radix v fuel u t, 2 <= radix <= 36 -> 0 <= u < 2 ^ Z.of_nat fuel ->
  split_at radix v u t -> (t = [] \/ 1 <= u) -> (fuel <> O) -> upper_numeral radix v (digits_before fuel radix u t).
Proof.
  intros radix v. induction fuel as [|fuel IH]; intros u t Hr Hu S H1 H0; [contradiction|]. cbn [digits_before].
  pose proof (Z.mod_pos_bound u radix ltac:(lia)).
  pose proof (split_cons radix v u t Hr ltac:(lia) S) as S'. change (chr (u mod radix)) with (symbol (u mod radix)) in S'.
  destruct (Z.ltb_spec u radix) as [L|L].
  - rewrite Z.div_small in S' by lia. destruct S' as (F & w & N & E). split; [|exact F]. split; [discriminate|].
    split; [rewrite N; f_equal; lia|]. cbn [hd]. rewrite Z.mod_small by lia. intros Hc. apply (chr_zero u) in Hc; [|lia].
    destruct H1 as [->|H1]; [|lia]. rewrite Hc. reflexivity.
  - assert (1 <= u / radix) by (apply Z.div_le_lower_bound; lia). rewrite Nat2Z.inj_succ, Z.pow_succ_r in Hu by lia.
    assert (u / radix < 2 ^ Z.of_nat fuel) by (apply Z.div_lt_upper_bound; nia).
    apply IH; auto; try lia. intros ->. cbn in *. lia.
Qed.
Lemma number_text_ok : forall radix v, 2 <= radix <= 36 -> 0 <= v -> upper_numeral radix v (number_text radix v).
Proof.
  intros radix v Hr Hv. apply digits_before_ok; auto; [|split; [constructor|exists 0; cbn; split; auto; lia]].
  rewrite Nat2Z.inj_succ, Z2Nat.id by apply Z.log2_nonneg. destruct (Z.eq_dec v 0) as [->|]; [cbn; lia|].
  pose proof (Z.log2_spec v). lia.
Qed.
Lemma text_unique : forall radix v s, 2 <= radix <= 36 -> 0 <= v -> upper_numeral radix v s -> s = number_text radix v.
Proof. intros radix v s Hr Hv H. destruct (number_text_ok radix v Hr Hv) as (C & U), H as (C' & U'). apply (canonical_unique radix v); auto; lia. Qed.
(** one digit exactly below the radix *)
Lemma text_single : forall radix v, 2 <= radix <= 36 -> 0 <= v -> (exists d, number_text radix v = [d]) <-> v < radix.
Proof.
  intros radix v Hr Hv. split.
  - intros (d & E). destruct (number_text_ok radix v Hr Hv) as ((_ & C & _) & _). rewrite E in C. apply numval_bound in C; [|lia]. cbn in C. lia.
  - intros L. exists (symbol v). unfold number_text. cbn [digits_before]. destruct (Z.ltb_spec v radix); [|lia]. rewrite Z.mod_small by lia. reflexivity.
Qed.

(** [reading] reads numerals *)
Lemma magnitude_ok : forall radix s v, magnitude radix s = Some v <-> s <> [] /\ numval radix s = Some v.
Proof. intros radix s v. destruct s as [|a s]; cbn [magnitude]; [split; [discriminate|intros (H & _); contradiction]|]. split; [intros H; split; auto; discriminate|tauto]. Qed.
Lemma reading_ok : forall sg radix s v, reading sg radix s = Some v <-> numeral sg radix s v.
Proof.
  intros sg radix s v. destruct (hd45 s) as [[t ->]|Hd].
  - unfold reading. change (45 =? 43) with false. change (45 =? 45) with true. rewrite andb_true_r. destruct sg; cbv iota.
    + rewrite numeral_neg, <- magnitude_ok. destruct (magnitude radix t) as [u|]; cbn [option_map]; split; intros H; inversion H; f_equal; lia.
    + split; [|intros H; exfalso; exact (numeral_neg_u _ _ _ H)]. intros H. apply magnitude_ok in H. destruct H as (_ & H). rewrite numval_no_sign in H by auto. discriminate.
  - rewrite numeral_pos, <- magnitude_ok by auto. destruct s as [|b t]; [cbn; split; discriminate|]. cbn [reading strip_plus hd] in *.
    destruct (Z.eqb_spec b 43); [tauto|]. destruct (Z.eqb_spec b 45); [contradiction|]. rewrite andb_false_r. tauto.
Qed.

(** ** The operations *)

Definition plain_fmt : fmt := {| alternate := false; sign_plus := false; width := None; fill := [32] |}.
Definition of_parsed (m : res parsed) : res (option (list Z)) :=
  let* r := m in Ok (match r with POk v => Some v | PErr _ => None end).
(** [println!] panics when formatting fails *)
Definition of_format (m : res (option (list Z))) : res line :=
  let* r := m in match r with Some s => Ok s | None => Panic end.

Section Operations.
Context {c : Cfg}.
(** the target has 64-bit pointers ([from_str] has a short cut there) *)
Variable small : bool.
(** a buffer with room for a sign; the slice returned *)
Definition room : list Z := repeat 0 (Z.to_nat (BITS + 1)).
Definition written (m : res (list Z * nat)) : res line := let* r := m in Ok (slice r).
Definition text_corrected : texts := {|
  run_read := fun sg radix l => of_parsed match radix with
    | None => m_from_str fix_smul_overflowing_full fix_lone small sg l
    | Some r => m_from_str_radix fix_smul_overflowing_full fix_lone sg l r end;
  run_print := fun sg o x => match o with
    | Decimal => of_format (if sg then fix_s_display x plain_fmt else fix_u_display x plain_fmt)
    | Binary => of_format (if sg then fix_s_binary x plain_fmt else fix_u_binary x plain_fmt)
    | Octal => of_format (if sg then fix_s_octal x plain_fmt else fix_u_octal x plain_fmt)
    | LowerHex => of_format (if sg then fix_s_lower_hex x plain_fmt else fix_u_lower_hex x plain_fmt)
    | UpperHex => of_format (if sg then fix_s_upper_hex x plain_fmt else fix_u_upper_hex x plain_fmt)
    | LowerExp => of_format (if sg then fix_s_exp 101 x plain_fmt else fix_u_exp 101 x)
    | UpperExp => of_format (if sg then fix_s_exp 69 x plain_fmt else fix_u_exp 69 x)
    | InRadix r => written (fix_to_str_radix sg x room r) end |}.
Definition text_published : texts := {|
  run_read := fun sg radix l => of_parsed match radix with
    | None => from_str small sg l
    | Some r => from_str_radix sg l r end;
  run_print := fun sg o x => match o with
    | Decimal => of_format (if sg then s_display x plain_fmt else u_display x)
    | Binary => of_format (if sg then s_binary x plain_fmt else u_binary x plain_fmt)
    | Octal => of_format (if sg then s_octal x plain_fmt else u_octal x plain_fmt)
    | LowerHex => of_format (if sg then s_lower_hex x plain_fmt else u_lower_hex x plain_fmt)
    | UpperHex => of_format (if sg then s_upper_hex x plain_fmt else u_upper_hex x plain_fmt)
    | LowerExp => of_format (if sg then s_exp 101 x plain_fmt else u_exp 101 x)
    | UpperExp => of_format (if sg then s_exp 69 x plain_fmt else u_exp 69 x)
    | InRadix r => written (to_str_radix sg x room r) end |}.

(** The lines and numbers on which the published operations are wrong. *)
(** a minus and digits whose value is slightly below the smallest number: the last
    multiplication by the radix overflows unnoticed *)
Definition misread (radix : Z) (s : line) : bool :=
  match s with
  | ch :: t => (ch =? 45) &&
      match rev t with
      | ch :: p => match numval radix (rev p), digit_in radix ch with
                   | Some u, Some _ => (u <=? 2 ^ (BITS - 1)) && (2 ^ (BITS - 1) <? u * radix) && (u * radix <? 2 ^ (BITS - 1) + 2 ^ (BITS - W))
                   | _, _ => false
                   end
      | [] => false
      end
  | [] => false
  end.
(** a sign and nothing else *)
Definition sign_alone (sg : bool) (s : line) : bool :=
  match s with [ch] => (ch =? 43) || (sg && (ch =? 45)) | _ => false end.
Definition text_defects : text_doubts := {|
  bad_read := fun sg radix l => match radix with
    | None => sg && misread 10 l
    | Some r => radix_ok r && (sign_alone sg l || (sg && misread r l)) end;
  bad_print := fun sg o v => match o with
    | LowerExp | UpperExp => Z.abs v <? 10
    | InRadix r => sg && radix_ok r && (v <? 0)
    | _ => false end |}.

Definition text_faithful (T : texts) (E : text_doubts) : Prop :=
  (forall sg radix l, PParse.bytes l ->
     meets (opt_rel (stands sg)) (unless (bad_read E sg radix l) (zread BITS sg radix l)) (run_read T sg radix l)) /\
  (forall sg o x, wf x -> let v := number sg x in
     meets eq (unless (bad_print E sg o v) (zprint BITS o v)) (run_print T sg o x)).
Definition same_state (z : state Z) (s : state (list Z)) : Prop :=
  same_store (vars z) (vars s) /\ input z = input s /\ output z = output s /\ Forall PParse.bytes (input s).
End Operations.

(** ** Programs *)
Section Programs.
Context {c : Cfg}.
Variable M : ops.
Variable D : doubts.
Hypothesis F : faithful M D.
Variable T : texts.
Variable E : text_doubts.
Hypothesis G : text_faithful T E.

Lemma mk_state : forall zv sv ls o, same_store zv sv -> Forall PParse.bytes ls -> same_state (State zv ls o) (State sv ls o).
Proof. intros zv sv ls o H1 H2. split; [exact H1|]. split; [reflexivity|]. split; [reflexivity|exact H2]. Qed.
Lemma trun_meets : forall fuel p z s, tproper p -> same_state z s -> meets same_state (zrun BITS chk D E fuel p z) (trun M T fuel p s).
Proof.
  destruct G as (G1 & G2). induction fuel as [|fuel IH]; intros p z s P S; [reflexivity|]. pose proof S as (S1 & S2 & S3 & S4).
  destruct p as [p|p q|b p q|b p|g radix i p q r|g o e]; cbn [zrun trun tproper] in *.
  - apply (bind_meets same_store); [apply (exec_meets M D F); auto|]. intros z' s' H. eexists. split; [reflexivity|]. rewrite S2, S3. apply mk_state; auto.
  - apply (bind_meets same_state); [apply IH; tauto|]. intros z' s' H. apply IH; tauto.
  - apply (bind_meets eq); [apply (test_meets M D F); tauto|]. intros r r' <-. destruct r; apply IH; tauto.
  - apply (bind_meets eq); [apply (test_meets M D F); tauto|]. intros r r' <-. destruct r; [|exists s; auto].
    apply (bind_meets same_state); [apply IH; tauto|]. intros z' s' H. apply IH; auto.
  - rewrite S2. destruct (input s) as [|l ls] eqn:EI; [apply IH; tauto|]. inversion S4 as [|? ? Hl Hls]; subst.
    apply (bind_meets (opt_rel (stands g))); [apply G1; auto|]. intros v v' H.
    destruct v as [v|], v' as [x|]; cbn [opt_rel] in H; try contradiction; apply IH; try tauto; rewrite S3; apply mk_state; auto. apply update_same; auto.
  - apply (bind_meets (stands g)); [apply (eval_meets M D F); tauto|]. intros v x (Wx & <-).
    apply (bind_meets eq); [apply G2; auto|]. intros l l' <-. eexists. split; [reflexivity|]. rewrite S2, S3. apply mk_state; auto.
Qed.
End Programs.

(** ** Reading *)
Section P.
Context {c : Cfg}.
Hypothesis HV : Valid.

Lemma radix_ok_spec : forall r, radix_ok r = true <-> 2 <= r <= 36.
Proof. intros r. unfold radix_ok. rewrite andb_true_iff, Z.leb_le, Z.leb_le. lia. Qed.
(** a parser that reads exactly the numerals in range *)
Lemma meets_read : forall sg radix l m, radix_ok (match radix with Some r => r | None => 10 end) = true ->
  (exists r, m = Ok r) ->
  ((forall v, (exists r, m = Ok (POk r) /\ wf r /\ number sg r = v) <-> numeral sg (match radix with Some r => r | None => 10 end) l v /\ in_range sg v) /\
   (forall r, m = Ok (POk r) -> wf r)
   <-> meets (opt_rel (stands sg)) (zread BITS sg radix l) (of_parsed m)).
Proof.
  intros sg radix l m HR (pr & ->). unfold zread. rewrite HR. cbn [of_parsed bind meets].
  set (r := match radix with Some r => r | None => 10 end) in *. clearbody r.
  pose proof (reading_ok sg r l) as RO. split.
  - intros (H & HW). eexists. split; [reflexivity|].
    destruct pr as [x|e]; destruct (reading sg r l) as [v|].
    + destruct (proj1 (H (number sg x))) as (N & R); [exists x; split; auto; split; auto; apply HW; auto|].
      apply RO in N. inversion N; subst. apply inside_spec in R. rewrite R. split; auto.
    + destruct (proj1 (H (number sg x))) as (N & R); [exists x; split; auto; split; auto; apply HW; auto|]. apply RO in N. discriminate.
    + destruct (inside_dec sg v) as [(A & ->)|(A & ->)]; [|exact I].
      destruct (proj2 (H v)) as (x & Ex & _); [split; auto; apply RO; auto|]. discriminate.
    + exact I.
  - intros (o & Eo & R). assert (o = match pr with POk v => Some v | PErr _ => None end) by congruence. subst o. clear Eo.
    assert (Q : forall v, reading sg r l = Some v /\ in_range sg v <-> exists x, pr = POk x /\ wf x /\ number sg x = v).
    { intros v. destruct (reading sg r l) as [w|].
      - destruct (inside_dec sg w) as [(A & E)|(A & E)]; rewrite E in R; destruct pr as [x|e]; cbn [opt_rel] in R; try contradiction.
        + destruct R as (R1 & R2). split; [intros (E1 & _); inversion E1; subst; eauto|]. intros (x' & E1 & _ & E2). inversion E1; subst. auto.
        + split; [intros (E1 & E2); inversion E1; subst; contradiction|]. intros (x' & E1 & _). discriminate.
      - destruct pr as [x|e]; cbn [opt_rel] in R; try contradiction. split; [intros (E1 & _); discriminate|]. intros (x' & E1 & _). discriminate. }
    split.
    + intros v. rewrite <- RO, Q. split; intros (x & E1 & E2); exists x; split; auto; congruence.
    + intros x Ex. assert (pr = POk x) by congruence. subst pr. clear Ex. destruct (reading sg r l) as [w|]; [destruct (inside BITS sg w)|]; cbn [opt_rel] in R; try contradiction. apply R.
Qed.

Lemma parse_ok : forall sg s radix, 2 <= radix <= 36 -> PParse.bytes s -> from_str_radix sg s radix = Ok (parse_result sg radix s) /\
  (forall r, parse_result sg radix s = POk r -> wf r).
Proof.
  intros sg s radix Hr Hb. split; [apply (from_str_radix_ok HV); auto|]. intros r.
  assert (G : forall neg z, from_scan neg z = POk r -> wf r).
  { intros neg z H. destruct z; cbn [from_scan] in H; inversion H. apply (wf_ofZ HV). }
  unfold parse_result, scan_result. destruct s as [|b t]; [discriminate|].
  destruct (b =? 43); [apply G|]. destruct (b =? 45); [destruct sg; [apply G|discriminate]|apply G].
Qed.
Lemma short_ok : forall small sg s, (length s < 39)%nat -> (exists r, from_str small sg s = Ok r) /\ (forall r, from_str small sg s = Ok (POk r) -> wf r).
Proof.
  intros small sg s H. rewrite (from_str_short HV) by auto. split; [eauto|]. intros r E. destruct (short_result sg s); inversion E. apply (wf_ofZ HV).
Qed.
Lemma m_parse_ok : forall sg s radix, 2 <= radix <= 36 -> PParse.bytes s ->
  (exists r, m_from_str_radix fix_smul_overflowing_full fix_lone sg s radix = Ok r) /\
  (forall r, m_from_str_radix fix_smul_overflowing_full fix_lone sg s radix = Ok (POk r) -> wf r).
Proof.
  intros sg s radix Hr Hb. rewrite (m_from_str_radix_ok HV) by auto. split; [eauto|]. intros r.
  assert (G : forall neg t, Ok match t with [] => PErr EInvalidDigit | _ => from_scan_abs neg (scan (mag sg neg) radix 0 t) end = Ok (POk r) -> wf r).
  { intros neg t H. destruct t as [|a t]; [discriminate|]. destruct (scan _ _ _ _); cbn [from_scan_abs] in H; inversion H. apply (wf_ofZ HV). }
  unfold m_result. destruct s as [|b t]; [discriminate|].
  destruct (b =? 43); [apply G|]. destruct (b =? 45); [destruct sg; [apply G|discriminate]|apply (G false (b :: t))].
Qed.
Lemma read_panics : forall sg radix l, radix_ok radix = false -> zread BITS sg (Some radix) l = Panicked.
Proof. intros sg radix l H. unfold zread. rewrite H. reflexivity. Qed.
Lemma not_radix : forall r, radix_ok r = false -> (r <? 2) || (36 <? r) = true.
Proof. intros r. unfold radix_ok. destruct (Z.leb_spec 2 r), (Z.leb_spec r 36), (Z.ltb_spec r 2), (Z.ltb_spec 36 r); cbn; auto; lia. Qed.
Lemma corrected_read : forall small sg radix l, PParse.bytes l ->
  meets (opt_rel (stands sg)) (zread BITS sg radix l) (run_read (text_corrected small) sg radix l).
Proof.
  intros small sg radix l Hb. cbn [run_read text_corrected]. destruct radix as [r|].
  - destruct (radix_ok r) eqn:HR.
    + pose proof (proj1 (radix_ok_spec r) HR) as Hr. destruct (m_parse_ok sg l r Hr Hb) as (T & Wf). apply (meets_read sg (Some r) l _ HR T).
      split; auto. intros v. apply (C85_parse c sg l r v HV Hb Hr).
    + rewrite read_panics by auto. cbn [meets]. unfold m_from_str_radix. rewrite not_radix by auto. reflexivity.
  - assert (T : (exists r, m_from_str fix_smul_overflowing_full fix_lone small sg l = Ok r) /\
        (forall r, m_from_str fix_smul_overflowing_full fix_lone small sg l = Ok (POk r) -> wf r)).
    { rewrite m_from_str_split. destruct (Z.ltb_spec (Z.of_nat (length l)) 39); [apply short_ok; lia|]. apply m_parse_ok; auto. lia. }
    destruct T as (T & Wf). apply (meets_read sg None l _ eq_refl T). split; auto. intros v. apply (C85_from_str c small sg l v HV Hb).
Qed.
(** the list for reading *)
Lemma misread_spec : forall radix t, misread radix (45 :: t) = true <-> exists w, missed radix t [] w.
Proof.
  intros radix t. unfold misread. change (45 =? 45) with true. cbn [andb]. split.
  - destruct (rev t) as [|ch p] eqn:E; [discriminate|]. apply (f_equal (@rev Z)) in E. rewrite rev_involutive in E. cbn [rev] in E.
    destruct (numval radix (rev p)) as [u|] eqn:N; [|discriminate]. destruct (digit_in radix ch) as [d|] eqn:Dg; [|discriminate].
    rewrite !andb_true_iff, Z.leb_le, !Z.ltb_lt. intros ((A & B) & C). exists (u * radix + d), (rev p), ch, u, d. repeat (split; auto).
  - intros (w & p & ch & u & d & -> & N & Dg & _ & A & B & C). rewrite rev_app_distr. cbn [rev app]. rewrite rev_involutive, N, Dg.
    rewrite !andb_true_iff, Z.leb_le, !Z.ltb_lt. auto.
Qed.
Lemma misread_minus : forall radix s, misread radix s = true -> exists t, s = 45 :: t.
Proof. intros radix [|ch t] H; [discriminate|]. cbn in H. apply andb_true_iff in H. destruct H as (H & _). apply Z.eqb_eq in H. subst. eauto. Qed.
Lemma not_minus : forall radix s, hd 0 s <> 45 -> misread radix s = false.
Proof. intros radix s H. destruct (misread radix s) eqn:E; auto. apply misread_minus in E. destruct E as (t & ->). exfalso. apply H. reflexivity. Qed.
Lemma list_read : forall small sg radix l, PParse.bytes l ->
  bad_read text_defects sg radix l = false <-> meets (opt_rel (stands sg)) (zread BITS sg radix l) (run_read (text_published small) sg radix l).
Proof.
  intros small sg radix l Hb. cbn [run_read text_published text_defects bad_read].
  assert (MP : forall r t v, 2 <= r <= 36 -> PParse.bytes t -> numeral true r (45 :: t) v -> v <= 0).
  { intros r t v Hr Ht H. apply numeral_neg in H. destruct H as (_ & H). apply horner_nonneg in H; lia. }
  assert (BT : forall t, l = 45 :: t -> PParse.bytes t) by (intros t ->; inversion Hb; auto).
  destruct radix as [r|].
  - destruct (radix_ok r) eqn:HR; cbn [andb].
    2:{ rewrite read_panics by auto. cbn [meets]. split; auto. intros _. unfold from_str_radix. rewrite not_radix by auto. reflexivity. }
    pose proof (proj1 (radix_ok_spec r) HR) as Hr. destruct (parse_ok sg l r Hr Hb) as (T & Wf).
    rewrite <- (meets_read sg (Some r) l _ HR (ex_intro _ _ T)).
    assert (Wf' : forall x, from_str_radix sg l r = Ok (POk x) -> wf x) by (intros x E; apply Wf; congruence).
    destruct (hd45 l) as [[t ->]|Hd]; [destruct sg|].
    + cbn [andb]. assert (Ht : PParse.bytes t) by (apply BT; auto).
      assert (K : forall v, (exists x, from_str_radix true (45 :: t) r = Ok (POk x) /\ wf x /\ number true x = v) <->
        (t = [] /\ v = 0) \/ (numeral true r (45 :: t) v /\ in_range true v) \/ (exists w, missed r t [] w /\ v = 2 ^ BITS - w))
        by (intros v; apply (C79_minus_value c t r v HV Ht Hr)).
      split.
      * intros B. apply orb_false_iff in B. destruct B as (B1 & B2). split; auto. intros v. rewrite K. split; [|tauto].
        intros [(-> & _)|[H|(w & M & _)]]; [discriminate|exact H|]. assert (misread r (45 :: t) = true) by (apply misread_spec; eauto). congruence.
      * intros (H & _). apply orb_false_iff. split.
        -- destruct t; [|reflexivity]. exfalso. destruct (proj1 (H 0)) as (N & _); [apply K; auto|]. apply numeral_neg in N. destruct N; auto.
        -- destruct (misread r (45 :: t)) eqn:E; [|reflexivity]. exfalso. apply misread_spec in E. destruct E as (w & M).
           destruct (proj1 (H (2 ^ BITS - w))) as (N & _); [apply K; eauto|]. apply MP in N; auto.
           pose proof (missed_fits HV _ _ _ _ Hr M). lia.
    + replace (sign_alone false (45 :: t)) with false by (destruct t; reflexivity). cbn [andb orb]. split; auto. intros _. split; auto. intros v.
      rewrite (C79_plain c false (45 :: t) r v HV Hb Hr ltac:(discriminate)). split; [intros [(E & _)|H]; [discriminate|exact H]|intros H; right; exact H].
    + rewrite not_minus, andb_false_r, orb_false_r by auto.
      assert (K : forall v, (exists x, from_str_radix sg l r = Ok (POk x) /\ wf x /\ number sg x = v) <-> (l = [43] /\ v = 0) \/ (numeral sg r l v /\ in_range sg v)).
      { intros v. pose proof (C79_plain c sg l r v HV Hb Hr (fun _ => Hd)) as H. destruct sg; exact H. }
      assert (SA : sign_alone sg l = true <-> l = [43]).
      { split; [|intros ->; reflexivity]. destruct l as [|b [|]]; try discriminate. cbn [sign_alone hd] in *. destruct (Z.eqb_spec b 43); [subst; auto|].
        destruct (Z.eqb_spec b 45); [contradiction|]. rewrite andb_false_r. discriminate. }
      split.
      * intros B. split; auto. intros v. rewrite K. split; [|tauto]. intros [(H & _)|H]; [|exact H]. apply SA in H. congruence.
      * intros (H & _). destruct (sign_alone sg l) eqn:E; [|reflexivity]. exfalso. assert (L : l = [43]) by (apply SA; auto).
        destruct (proj1 (H 0)) as (N & _); [apply K; auto|]. rewrite L in N. apply numeral_pos in N; [|cbn; lia]. destruct N as (N & _). apply N. reflexivity.
  - assert (T : (exists r, from_str small sg l = Ok r) /\ (forall r, from_str small sg l = Ok (POk r) -> wf r)).
    { destruct (Nat.lt_ge_cases (length l) 39); [apply short_ok; lia|]. rewrite from_str_long by auto.
      destruct (parse_ok sg l 10 ltac:(lia) Hb) as (-> & Wf). split; [eauto|]. intros r E. apply Wf. congruence. }
    destruct T as (T & Wf). rewrite <- (meets_read sg None l _ eq_refl T). destruct sg; cbn [andb].
    + pose proof (fun v => C79_from_str c small l v HV Hb) as K. split.
      * intros B. split; auto. intros v. etransitivity; [apply K|]. split; [|auto]. intros [H|(t & w & -> & M & _)]; [exact H|].
        assert (misread 10 (45 :: t) = true) by (apply misread_spec; eauto). congruence.
      * intros (H & _). destruct (misread 10 l) eqn:E; [|reflexivity]. exfalso. destruct (misread_minus _ _ E) as (t & ->). apply misread_spec in E. destruct E as (w & M).
        destruct (proj1 (H (2 ^ BITS - w))) as (N & _); [apply K; right; eauto|]. apply MP in N; [|lia|auto].
        pose proof (missed_fits HV 10 t [] w ltac:(lia) M). lia.
    + split; auto. intros _. split; auto. intros v. apply (C51_unsigned c small l v HV Hb).
Qed.

(** ** Printing *)
Lemma format_ok : forall m s, m = Ok (Some s) -> meets eq (Done s) (of_format m).
Proof. intros m s ->. exists s. auto. Qed.
Lemma format_is : forall m s t, m = Ok (Some t) -> meets eq (Done s) (of_format m) <-> s = t.
Proof. intros m s t ->. cbn [of_format bind meets]. split; [intros (b & E & ->); congruence|intros ->; eauto]. Qed.
Lemma pos_minus : forall v, 0 <= v -> minus v = [].
Proof. intros v H. unfold minus. destruct (Z.ltb_spec v 0); [lia|reflexivity]. Qed.
Lemma u_pos : forall x, wf x -> 0 <= uval x.
Proof. intros x Hx. pose proof (uval_range HV x Hx). lia. Qed.
Lemma written_ok : forall m buffer (p : list Z -> Prop), writes m buffer p -> exists s, written m = Ok s /\ p s.
Proof.
  intros m buffer p (i & s & -> & L & H). exists s. split; auto. cbn [written bind]. f_equal. unfold slice. cbn [fst snd].
  rewrite skipn_app, skipn_all2 by (rewrite firstn_length; lia). rewrite firstn_length. replace (i - Nat.min i (length buffer))%nat with 0%nat by lia. reflexivity.
Qed.
Lemma room_length : Z.of_nat (length room) = BITS + 1.
Proof. unfold room. rewrite repeat_length. pose proof (BITS_pos HV). lia. Qed.
Lemma unpadded : forall body s, right_aligned plain_fmt body s -> s = body.
Proof. intros body s H. exact H. Qed.
(** binary, octal and hexadecimal, with and without the corrections *)
Lemma plain_binary : forall radix tag x, wf x -> 2 <= radix <= 36 ->
  u_binary_octal radix tag x plain_fmt = Ok (Some (number_text radix (uval x))) /\ fix_u_binary_octal radix tag x plain_fmt = Ok (Some (number_text radix (uval x))).
Proof.
  intros radix tag x Hx Hr. destruct (u_str HV x radix Hx Hr) as (i & s & E & Es & L & C & U).
  assert (S : s = number_text radix (uval x)) by (apply text_unique; auto using u_pos; split; auto).
  unfold u_binary_octal, fix_u_binary_octal. rewrite E. cbn [bind]. rewrite Es, upper_ascii by auto. rewrite <- S. split; reflexivity.
Qed.
Lemma plain_hex : forall x, wf x -> let s := number_text 16 (uval x) in
  u_lower_hex x plain_fmt = Ok (Some (map lower_case s)) /\ fix_u_lower_hex x plain_fmt = Ok (Some (map lower_case s)) /\
  u_upper_hex x plain_fmt = Ok (Some s) /\ fix_u_upper_hex x plain_fmt = Ok (Some s).
Proof.
  intros x Hx. destruct (u_str HV x 16 Hx ltac:(lia)) as (i & s & E & Es & L & C & U).
  assert (S : s = number_text 16 (uval x)) by (apply text_unique; auto using u_pos; [lia|split; auto]).
  cbv zeta. rewrite <- S. unfold u_lower_hex, fix_u_lower_hex, u_upper_hex, fix_u_upper_hex, u_hex, fix_u_hex. rewrite E. cbn [bind]. cbv zeta. rewrite Es. cbn [fst]. rewrite !hex_slice by auto.
  rewrite map_upper by auto. rewrite (upper_ascii s U). rewrite lower_ascii by (apply map_lower; auto). (split; [|split; [|split]]); reflexivity.
Qed.
Lemma number_mod : forall sg x, wf x -> number sg x mod 2 ^ BITS = uval x.
Proof. intros sg x Hx. apply (raw_self HV); auto. Qed.
Lemma exp_split : forall v d t e, 0 <= v -> upper_numeral 10 v (d :: t) -> upper_numeral 10 (Z.of_nat (length t)) e ->
  number_text 10 v = d :: t /\ number_text 10 (Z.of_nat (length t)) = e.
Proof. intros v d t e Hv H1 H2. split; symmetry; apply text_unique; auto; lia. Qed.
Lemma corrected_print : forall small sg o x, wf x -> meets eq (zprint BITS o (number sg x)) (run_print (text_corrected small) sg o x).
Proof.
  intros small sg o x Hx. pose proof (u_pos x Hx) as U0. pose proof (number_mod sg x Hx) as NM.
  destruct o as [| | | | | | |r]; cbn [run_print text_corrected zprint]; rewrite ?NM.
  - apply format_ok. destruct (C86_display c x plain_fmt HV Hx) as ((s & E & d & U & A) & (s' & E' & d' & U' & A')). apply unpadded in A, A'.
    destruct sg; cbn [number].
    + rewrite E', A'. cbn [sign_plus plain_fmt]. rewrite (text_unique 10 (Z.abs (sval x)) d') by (auto; lia). reflexivity.
    + rewrite E, A. cbn [sign_plus plain_fmt app]. rewrite pos_minus, Z.abs_eq by auto. rewrite (text_unique 10 (uval x) d) by (auto; lia). reflexivity.
  - apply format_ok. unfold fix_s_binary, fix_u_binary. rewrite (s_wrapping_ok HV) by auto. destruct sg; apply plain_binary; auto; lia.
  - apply format_ok. unfold fix_s_octal, fix_u_octal. rewrite (s_wrapping_ok HV) by auto. destruct sg; apply plain_binary; auto; lia.
  - apply format_ok. unfold fix_s_lower_hex. rewrite (s_wrapping_ok HV) by auto. destruct sg; apply plain_hex; auto.
  - apply format_ok. unfold fix_s_upper_hex. rewrite (s_wrapping_ok HV) by auto. destruct sg; apply plain_hex; auto.
  - apply format_ok. destruct (C86_exponent c 101 x plain_fmt HV Hx) as ((s & E & d & t & e & -> & U & V) & (s' & E' & d' & t' & e' & -> & U' & V')).
    unfold exponent_text. destruct sg; cbn [number].
    + destruct (exp_split _ _ _ _ (Z.abs_nonneg (sval x)) U' V') as (-> & ->). exact E'.
    + rewrite pos_minus, Z.abs_eq by auto. destruct (exp_split _ _ _ _ U0 U V) as (-> & ->). exact E.
  - apply format_ok. destruct (C86_exponent c 69 x plain_fmt HV Hx) as ((s & E & d & t & e & -> & U & V) & (s' & E' & d' & t' & e' & -> & U' & V')).
    unfold exponent_text. destruct sg; cbn [number].
    + destruct (exp_split _ _ _ _ (Z.abs_nonneg (sval x)) U' V') as (-> & ->). exact E'.
    + rewrite pos_minus, Z.abs_eq by auto. destruct (exp_split _ _ _ _ U0 U V) as (-> & ->). exact E.
  - pose proof room_length as RL. destruct (C86_to_str_radix c sg x room r HV Hx) as (A & B). destruct (radix_ok r) eqn:HR.
    + pose proof (proj1 (radix_ok_spec r) HR) as Hr. destruct (written_ok _ _ _ (A ltac:(destruct sg; split; auto; lia))) as (s & E & d & U & ->). rewrite E. eexists. split; [reflexivity|].
      rewrite (text_unique r (Z.abs (number sg x)) d) by (auto; lia). reflexivity.
    + cbn [meets]. rewrite B; [reflexivity|]. intros (Hr & _). apply radix_ok_spec in Hr. congruence.
Qed.
(** the list for printing *)
Lemma published_exp : forall tag x, wf x -> let v := uval x in exists t,
  u_exp tag x = Ok (Some t) /\ (t = exponent_text tag v <-> 10 <= v).
Proof.
  intros tag x Hx v. destruct (u_exp_ok HV tag x Hx) as (d & t & e & E & C & U & C' & U'). eexists. split; [exact E|].
  pose proof (u_pos x Hx) as U0. destruct (exp_split v d t e U0 (conj C U) (conj C' U')) as (S1 & S2). unfold exponent_text. rewrite S1, S2.
  pose proof (text_single 10 v ltac:(lia) U0) as TS. rewrite S1 in TS. destruct t as [|a t].
  - assert (v < 10) by (apply TS; eauto). split; [|lia]. intros H'. exfalso. apply (f_equal (@length Z)) in H'. cbn [length app] in H'. lia.
  - assert (~ v < 10) by (intros H'; apply TS in H'; destruct H'; discriminate). split; [intros _; lia|reflexivity].
Qed.
Lemma list_print : forall small sg o x, wf x -> let v := number sg x in
  bad_print text_defects sg o v = false <-> meets eq (zprint BITS o v) (run_print (text_published small) sg o x).
Proof.
  intros small sg o x Hx v. pose proof (u_pos x Hx) as U0. pose proof (number_mod sg x Hx) as NM. fold v in NM.
  assert (EX : forall tag, (Z.abs v <? 10) = false <-> meets eq (Done (minus v ++ exponent_text tag (Z.abs v))) (of_format (if sg then s_exp tag x plain_fmt else u_exp tag x))).
  { intros tag. rewrite Z.ltb_ge. destruct sg; cbn [number] in v.
    - destruct (published_exp tag (ofZ (Z.abs (sval x))) (wf_ofZ HV _)) as (t & E & H). rewrite (abs_uval HV) in H by auto.
      unfold s_exp. rewrite (s_signed_ok HV) by auto. rewrite E. cbn [bind option_map]. erewrite format_is by reflexivity.
      change (Z.abs v) with (Z.abs (sval x)). rewrite <- H. change (sign_str plain_fmt (sval x)) with (minus v). split; [intros ->; reflexivity|]. intros H'. apply app_inv_head in H'. auto.
    - destruct (published_exp tag x Hx) as (t & E & H). rewrite (format_is _ _ _ E). subst v. rewrite pos_minus, Z.abs_eq by auto. cbn [app].
      rewrite <- H. split; intros ->; reflexivity. }
  destruct o as [| | | | | | |r]; cbn [run_print text_published zprint bad_print text_defects]; rewrite ?NM; try apply EX.
  - split; auto. intros _. apply format_ok. destruct sg; cbn [number] in v.
    + destruct (C30_signed c x plain_fmt HV Hx) as (s & E & d & U & ->). rewrite E. cbn [sign_plus plain_fmt].
      rewrite (text_unique 10 (Z.abs (sval x)) d) by (auto; lia). reflexivity.
    + destruct (C30_unsigned c x HV Hx) as (s & E & U). rewrite E. subst v. rewrite pos_minus, Z.abs_eq by auto.
      rewrite (text_unique 10 (uval x) s) by (auto; lia). reflexivity.
  - split; auto. intros _. apply format_ok. unfold s_binary, u_binary. rewrite (s_wrapping_ok HV) by auto. destruct sg; apply plain_binary; auto; lia.
  - split; auto. intros _. apply format_ok. unfold s_octal, u_octal. rewrite (s_wrapping_ok HV) by auto. destruct sg; apply plain_binary; auto; lia.
  - split; auto. intros _. apply format_ok. unfold s_lower_hex. rewrite (s_wrapping_ok HV) by auto. destruct sg; apply plain_hex; auto.
  - split; auto. intros _. apply format_ok. unfold s_upper_hex. rewrite (s_wrapping_ok HV) by auto. destruct sg; apply plain_hex; auto.
  - pose proof room_length as RL. assert (SG : sg = false -> (v <? 0) = false) by (intros ->; apply Z.ltb_ge; exact U0).
    destruct (radix_ok r) eqn:HR; rewrite ?andb_true_r, ?andb_false_r; cbn [andb].
    2:{ split; auto. intros _. cbn [meets]. rewrite (to_str_radix_panic sg x room r); [reflexivity|]. intros (Hr & _). apply radix_ok_spec in Hr. congruence. }
    pose proof (proj1 (radix_ok_spec r) HR) as Hr. assert (WM : forall s, written (to_str_radix sg x room r) = Ok s ->
      (meets eq (Done (minus v ++ number_text r (Z.abs v))) (written (to_str_radix sg x room r)) <-> s = minus v ++ number_text r (Z.abs v))).
    { intros s ->. cbn [meets]. split; [intros (b & E & ->); congruence|intros ->; eauto]. }
    replace (sg && (v <? 0)) with (v <? 0) by (destruct sg; cbn [andb]; auto).
    destruct (Z.ltb_spec v 0) as [L|L].
    + split; [discriminate|]. intros H. exfalso. destruct sg; cbn [number] in v; [|subst v; lia].
      assert (HB : BITS + 1 <= Z.of_nat (length room)) by lia.
      destruct (C29_negative c x room r HV Hx L Hr HB) as [(_ & _ & E)|(_ & Wr)].
      { rewrite E in H. destruct H as (b & E' & _). discriminate. }
      apply (C29_negative_never c x room r HV Hx L Hr HB). destruct (written_ok _ _ _ Wr) as (s & E & <-). apply (WM _ E) in H.
      destruct Wr as (i & s & E' & Li & <-). exists i. eexists. split; [exact E'|]. split; [exact Li|]. rewrite H. unfold minus.
      destruct (Z.ltb_spec v 0); [|lia]. cbn [app]. apply numeral_neg.
      destruct (number_text_ok r (Z.abs v) Hr ltac:(lia)) as ((Ne & N & _) & _). split; auto. rewrite N. f_equal. unfold v. lia.
    + split; auto. intros _. assert (Wr : writes (to_str_radix sg x room r) room (upper_numeral r v)).
      { destruct sg; cbn [number] in v; [apply (C29_signed_nonnegative c x room r HV Hx L Hr); lia|apply (C29_unsigned c x room r HV Hx Hr); lia]. }
      destruct (written_ok _ _ _ Wr) as (s & E & U). apply (WM s E). rewrite pos_minus, Z.abs_eq by auto. apply text_unique; auto.
Qed.

Lemma text_corrected_faithful : forall small, text_faithful (text_corrected small) text_sure.
Proof. intros small. split; intros; cbn [unless text_sure bad_read bad_print]; [apply corrected_read; auto|apply corrected_print; auto]. Qed.
Lemma text_published_faithful : forall small, text_faithful (text_published small) text_defects.
Proof.
  intros small. split.
  - intros sg radix l Hb. destruct (bad_read text_defects sg radix l) eqn:E; [exact I|]. apply (list_read small sg radix l Hb) in E. exact E.
  - intros sg o x Hx v. destruct (bad_print text_defects sg o v) eqn:E; [exact I|]. apply (list_print small sg o x Hx) in E. exact E.
Qed.
End P.
