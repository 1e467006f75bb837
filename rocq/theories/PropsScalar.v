(** * Properties: operations with scalar operands (C09, C41-C43, C49, C50)

    [k : skind] ranges over the kinds of scalar the methods come in (one limb,
    two limbs, 32, 64 and 128 bits; [kbits k] is the width of the scalar type),
    [o : sop] over addition, subtraction and multiplication, and [sopz o] is
    the integer operation.  [_us] are the methods with an unsigned scalar,
    [_is] those with a signed one. *)

Require Import ZArith List Bool Lia.
From Verif Require Import Prim Spec Facts MAdd MMul MShift MCore PCore PBits PWide MArith PArith PArith2 PPow PMisc PRet
  MDiv DivSpec PDiv PDivFull MScalar PScalar PScalarDiv.
Import ListNotations.
Local Open Scope Z_scope.

Notation E64 := (@ofZ c256_64).
Notation E32 := (@ofZ c256_32).
Notation E384 := (@ofZ c384_64).
Notation E512 := (@ofZ c512_32).

(** A pair of a number and a scalar. *)
Definition returns_u_with {c : Cfg} (m : res (list Z * Z)) (a r : Z) : Prop :=
  exists q, m = Ok (q, r) /\ wf q /\ uval q = a.
Definition returns_s_with {c : Cfg} (m : res (list Z * Z)) (a r : Z) : Prop :=
  exists q, m = Ok (q, r) /\ wf q /\ sval q = a.
(** 128-bit scalars on 32-bit limbs. *)
Definition wide_scalar {c : Cfg} (k : skind) : Prop := k = K128 /\ W = 32.

Section Aux.
Context {c : Cfg}.
Hypothesis HV : Valid.
Lemma oflag_add : forall o sg a b, (sg = true -> o <> SMul) -> oflag o sg a b = negb (fitsb sg (sopz o a b)).
Proof. intros [] [] a b H; try reflexivity. exfalso. apply H; reflexivity. Qed.
Lemma opU' : forall m v, m = (if chk && negb (fitsb false v) then Panic else Ok (ofZ v)) ->
  (chk = true -> returns_u_or_panics m (fits_u BITS v) v) /\ (chk = false -> returns_u m (v mod 2 ^ BITS)).
Proof. intros m v H. apply (opU HV). exact H. Qed.
Lemma opS' : forall m v, m = (if chk && negb (fitsb true v) then Panic else Ok (ofZ v)) ->
  (chk = true -> returns_s_or_panics m (fits_s BITS v) v) /\ (chk = false -> returns_s m (swrap BITS v)).
Proof. intros m v H. apply (opS HV). exact H. Qed.
Lemma withU : forall m a r, m = Ok (ofZ a, r) -> fits_u BITS a -> returns_u_with m a r.
Proof. intros m a r -> F. exists (ofZ a). repeat split; try apply (wf_ofZ HV). exact (val_ofZ_small HV false a F). Qed.
Lemma withS : forall m a r, m = Ok (ofZ a, r) -> returns_s_with m (swrap BITS a) r.
Proof. intros m a r ->. exists (ofZ a). repeat split; try apply (wf_ofZ HV). apply (sval_ofZ HV). Qed.
Lemma div_fits : forall x n, wf x -> 0 < n -> fits_u BITS (uval x / n).
Proof.
  intros x n Hx Hn. pose proof (uval_range HV x Hx) as R. unfold fits_u. split; [apply Z.div_pos; lia|].
  apply Z.div_lt_upper_bound; nia.
Qed.
Lemma sdiv_fits : forall x n, wf x -> 0 < n -> fits_s BITS (sval x / n).
Proof.
  intros x n Hx Hn. pose proof (sval_range HV x Hx) as R. pose proof (pBh HV). unfold fits_s in *.
  pose proof (Z.div_mod (sval x) n ltac:(lia)). pose proof (Z.mod_pos_bound (sval x) n Hn).
  split; [apply Z.div_le_lower_bound; nia|apply Z.div_lt_upper_bound; nia].
Qed.
Lemma limb_exact : forall k x n, kbits k <= W -> exact_scalar W N (kbits k) x n.
Proof. intros. left. auto. Qed.
Lemma val_true : forall x, val true x = sval x.
Proof. reflexivity. Qed.
End Aux.

(** ** C41: addition, subtraction, multiplication by a scalar, unsigned *)

Theorem C41_wrapping : forall (c : Cfg) o k x n, Valid -> wf x -> fits_u (kbits k) n ->
  returns_u (wrapping_us o k false x n) (sopz o (uval x) n mod 2 ^ BITS).
Proof. intros c o k x n HV Hx Hn. apply (retU HV). apply (wrapping_us_ok HV); auto. discriminate. Qed.
Theorem C41_overflowing : forall (c : Cfg) o k x n, Valid -> wf x -> fits_u (kbits k) n ->
  returns_u_flag (overflowing_us o k false x n) (sopz o (uval x) n mod 2 ^ BITS) (~ fits_u BITS (sopz o (uval x) n)).
Proof.
  intros c o k x n HV Hx Hn. apply (flagU HV). rewrite (overflowing_us_ok HV) by (auto; discriminate).
  rewrite oflag_add by discriminate. reflexivity.
Qed.
Theorem C41_checked : forall (c : Cfg) o k x n, Valid -> wf x -> fits_u (kbits k) n ->
  returns_u_opt (checked_us o k false x n) (fits_u BITS (sopz o (uval x) n)) (sopz o (uval x) n).
Proof.
  intros c o k x n HV Hx Hn. apply (optU HV). rewrite (checked_us_ok HV) by (auto; discriminate).
  rewrite oflag_add, negb_involutive by discriminate. reflexivity.
Qed.
Theorem C41_plain : forall (c : Cfg) o k x n, Valid -> wf x -> fits_u (kbits k) n ->
  (chk = true -> returns_u_or_panics (plain_us o k false x n) (fits_u BITS (sopz o (uval x) n)) (sopz o (uval x) n)) /\
  (chk = false -> returns_u (plain_us o k false x n) (sopz o (uval x) n mod 2 ^ BITS)).
Proof.
  intros c o k x n HV Hx Hn. apply (opU' HV). rewrite (plain_us_ok HV) by (auto; discriminate).
  rewrite oflag_add by discriminate. reflexivity.
Qed.
Example C41_ex1 : @wrapping_us c256_64 SAdd KLimb false (E64 (2 ^ 256 - 3)) 7 = Ok (E64 4) /\
  @overflowing_us c256_64 SSub KWide false (E64 (2 ^ 100)) (2 ^ 127) = Ok (E64 (2 ^ 256 + 2 ^ 100 - 2 ^ 127), true) /\
  @checked_us c256_64 SMul K32 false (E64 (2 ^ 230)) (2 ^ 26) = Ok None.
Proof. vm_compute. auto. Qed.
Example C41_ex2 : @wrapping_us c256_32 SMul K128 false (E32 (2 ^ 100 + 3)) (2 ^ 127 + 5) = Ok (E32 ((2 ^ 100 + 3) * (2 ^ 127 + 5))) /\
  @overflowing_us c256_32 SAdd K128 false (E32 (2 ^ 256 - 1)) (2 ^ 127) = Ok (E32 (2 ^ 127 - 1), true) /\
  @plain_us c256_32 SSub K64 false (E32 5) (2 ^ 40) = Panic.
Proof. vm_compute. auto. Qed.
Example C41_ex3 : @plain_us c512_32 SSub K64 false (E512 5) (2 ^ 40) = Ok (E512 (5 - 2 ^ 40)).
Proof. vm_compute. auto. Qed.

(** ** C42: the same for signed values

    128-bit scalars on 32-bit limbs are left to C43.  The overflow flag of the
    multiplications has the same hole as C06. *)

Theorem C42_wrapping_unsigned_scalar : forall (c : Cfg) o k x n, Valid -> wf x -> fits_u (kbits k) n -> ~ wide_scalar k ->
  returns_s (wrapping_us o k true x n) (swrap BITS (sopz o (sval x) n)).
Proof. intros c o k x n HV Hx Hn Hk. apply (retS HV). apply (wrapping_us_ok HV); auto. Qed.
Theorem C42_wrapping_signed_scalar : forall (c : Cfg) o k x n, Valid -> wf x -> fits_s (kbits k) n -> ~ wide_scalar k ->
  returns_s (wrapping_is o k x n) (swrap BITS (sopz o (sval x) n)).
Proof. intros c o k x n HV Hx Hn Hk. apply (retS HV). apply (wrapping_is_ok HV); auto. Qed.
Theorem C42_overflowing_unsigned_scalar : forall (c : Cfg) o k x n, Valid -> wf x -> fits_u (kbits k) n -> ~ wide_scalar k -> o <> SMul ->
  returns_s_flag (overflowing_us o k true x n) (swrap BITS (sopz o (sval x) n)) (~ fits_s BITS (sopz o (sval x) n)).
Proof.
  intros c o k x n HV Hx Hn Hk Ho. apply (flagS HV). rewrite (overflowing_us_ok HV) by auto.
  rewrite oflag_add by auto. reflexivity.
Qed.
Theorem C42_overflowing_signed_scalar : forall (c : Cfg) o k x n, Valid -> wf x -> fits_s (kbits k) n -> ~ wide_scalar k -> o <> SMul ->
  returns_s_flag (overflowing_is o k x n) (swrap BITS (sopz o (sval x) n)) (~ fits_s BITS (sopz o (sval x) n)).
Proof.
  intros c o k x n HV Hx Hn Hk Ho. apply (flagS HV). rewrite (overflowing_is_ok HV) by auto.
  rewrite oflag_add by auto. reflexivity.
Qed.
Theorem C42_checked : forall (c : Cfg) o k x n, Valid -> wf x -> ~ wide_scalar k -> o <> SMul ->
  (fits_u (kbits k) n -> returns_s_opt (checked_us o k true x n) (fits_s BITS (sopz o (sval x) n)) (sopz o (sval x) n)) /\
  (fits_s (kbits k) n -> returns_s_opt (checked_is o k x n) (fits_s BITS (sopz o (sval x) n)) (sopz o (sval x) n)).
Proof.
  intros c o k x n HV Hx Hk Ho. split; intros Hn; apply (optS HV);
    [rewrite (checked_us_ok HV) by auto|rewrite (checked_is_ok HV) by auto]; rewrite oflag_add, negb_involutive by auto; reflexivity.
Qed.
Theorem C42_plain : forall (c : Cfg) o k x n, Valid -> wf x -> ~ wide_scalar k -> o <> SMul ->
  (fits_u (kbits k) n ->
    (chk = true -> returns_s_or_panics (plain_us o k true x n) (fits_s BITS (sopz o (sval x) n)) (sopz o (sval x) n)) /\
    (chk = false -> returns_s (plain_us o k true x n) (swrap BITS (sopz o (sval x) n)))) /\
  (fits_s (kbits k) n ->
    (chk = true -> returns_s_or_panics (plain_is o k x n) (fits_s BITS (sopz o (sval x) n)) (sopz o (sval x) n)) /\
    (chk = false -> returns_s (plain_is o k x n) (swrap BITS (sopz o (sval x) n)))).
Proof.
  intros c o k x n HV Hx Hk Ho. split; intros Hn; apply (opS' HV);
    [rewrite (plain_us_ok HV) by auto|rewrite (plain_is_ok HV) by auto]; rewrite oflag_add by auto; reflexivity.
Qed.
(** The flag of the multiplications is set exactly for these products. *)
Theorem C42_overflowing_mul : forall (c : Cfg) k x n, Valid -> wf x -> ~ wide_scalar k ->
  (fits_u (kbits k) n -> returns_s_flag (overflowing_us SMul k true x n) (swrap BITS (sval x * n))
     (2 ^ (BITS - 1) <= sval x * n \/ sval x * n <= - (2 ^ (BITS - 1) + 2 ^ (BITS - W)))) /\
  (fits_s (kbits k) n -> returns_s_flag (overflowing_is SMul k x n) (swrap BITS (sval x * n))
     (2 ^ (BITS - 1) <= sval x * n \/ sval x * n <= - (2 ^ (BITS - 1) + 2 ^ (BITS - W)))).
Proof.
  intros c k x n HV Hx Hk. split; intros Hn; [rewrite (overflowing_us_ok HV) by auto|rewrite (overflowing_is_ok HV) by auto];
    cbn [oflag sopz val]; exists (ofZ (sval x * n)), (mulf true (sval x) n); (split; [reflexivity|]); (split; [apply (wf_ofZ HV)|]);
    (split; [apply (sval_ofZ HV)|]); rewrite (mulf_ovf HV), (ovf_s_spec); reflexivity.
Qed.
Theorem C42_overflowing_mul_refuted : exists (c : Cfg) x, Valid /\ wf x /\
  ~ fits_s BITS (sval x * 2) /\
  (exists r, overflowing_us SMul KLimb true x 2 = Ok (r, false)) /\
  (exists r, overflowing_is SMul K64 x 2 = Ok (r, false)) /\ (exists r, checked_us SMul KWide true x 2 = Ok (Some r)).
Proof.
  exists c256_64, (E64 (- 2 ^ 254 - 1)). split; [exact valid_c256_64|]. split; [exact (wf_ofZ valid_c256_64 _)|].
  assert (S : @sval c256_64 (E64 (- 2 ^ 254 - 1)) = - 2 ^ 254 - 1) by (vm_compute; reflexivity). rewrite S.
  split; [intros [H _]; vm_compute in H; auto|].
  split; [eexists; vm_compute; reflexivity|]. split; eexists; vm_compute; reflexivity.
Qed.
Example C42_ex1 : @wrapping_us c256_64 SSub KLimb true (E64 (- 2 ^ 255)) 1 = Ok (E64 (2 ^ 255 - 1)) /\
  @wrapping_is c256_64 SMul K128 (E64 (2 ^ 100)) (- 2 ^ 100 - 1) = Ok (E64 (- 2 ^ 200 - 2 ^ 100)) /\
  @overflowing_is c256_64 SAdd KWide (E64 (- 2 ^ 255 + 3)) (- 4) = Ok (E64 (2 ^ 255 - 1), true).
Proof. vm_compute. auto. Qed.
Example C42_ex2 : @wrapping_is c256_32 SSub K64 (E32 5) (- 2 ^ 63) = Ok (E32 (5 + 2 ^ 63)) /\
  @checked_is c256_32 SSub K32 (E32 (2 ^ 255 - 1)) (- 1) = Ok None /\
  @plain_us c256_32 SAdd KWide true (E32 (- 2 ^ 70)) (2 ^ 64 - 1) = Ok (E32 (- 2 ^ 70 + 2 ^ 64 - 1)) /\
  @plain_is c512_32 SAdd KLimb (E512 (- 2 ^ 511)) (- 1) = Ok (E512 (2 ^ 511 - 1)).
Proof. vm_compute. auto. Qed.
Example C42_ex3 : @overflowing_us c384_64 SMul KLimb true (E384 (- 2 ^ 383)) 3 = Ok (E384 (- 2 ^ 383), true) /\
  @overflowing_is c384_64 SMul KLimb (E384 (- 2 ^ 383)) (- 1) = Ok (E384 (- 2 ^ 383), true).
Proof. vm_compute. auto. Qed.

(** ** C43: 128-bit scalars on 32-bit limbs, signed

    The property is that these agree with the other kinds.  It fails: the
    additions and subtractions panic on every input, and the multiplications
    use the scalar with its digits 1 and 3 in base 2^32 exchanged. *)

Theorem C43_add_refuted : exists (c : Cfg) x, Valid /\ wf x /\ fits_s BITS (sval x + 1) /\
  wrapping_us SAdd K128 true x 1 = Panic /\ wrapping_is SAdd K128 x 1 = Panic /\
  wrapping_us SSub K128 true x 1 = Panic /\ wrapping_is SSub K128 x 1 = Panic.
Proof.
  exists c256_32, (E32 5). split; [exact valid_c256_32|]. split; [exact (wf_ofZ valid_c256_32 _)|].
  split; [vm_compute; split; discriminate || reflexivity|]. vm_compute. auto.
Qed.
Theorem C43_mul_refuted : exists (c : Cfg) x n, Valid /\ wf x /\ 0 <= n < 2 ^ 127 /\ fits_s BITS (sval x * n) /\
  (exists r, wrapping_us SMul K128 true x n = Ok r /\ sval r <> sval x * n) /\
  (exists r, wrapping_is SMul K128 x n = Ok r /\ sval r <> sval x * n).
Proof.
  exists c256_32, (E32 1), (2 ^ 32). split; [exact valid_c256_32|]. split; [exact (wf_ofZ valid_c256_32 _)|].
  split; [lia|]. split; [vm_compute; split; discriminate || reflexivity|].
  split; eexists; (split; [vm_compute; reflexivity|vm_compute; discriminate]).
Qed.
(** What they do, for every input. *)
Theorem C43_add_sub_panic : forall (c : Cfg) o x n, Valid -> W = 32 -> wf x -> o <> SMul ->
  (fits_u 128 n -> wrapping_us o K128 true x n = Panic /\ overflowing_us o K128 true x n = Panic /\
    checked_us o K128 true x n = Panic /\ plain_us o K128 true x n = Panic) /\
  (fits_s 128 n -> wrapping_is o K128 x n = Panic /\ overflowing_is o K128 x n = Panic /\
    checked_is o K128 x n = Panic /\ plain_is o K128 x n = Panic).
Proof.
  intros c o x n HV E Hx Ho. split; intros Hn.
  - destruct (swapped_add HV o x n E Hx Hn Ho) as [A B].
    unfold plain_us, checked_us. rewrite A, B. repeat split. destruct chk; reflexivity.
  - destruct (swapped_add_i HV o x n E Hx Hn Ho) as [A B].
    unfold plain_is, checked_is. rewrite A, B. repeat split. destruct chk; reflexivity.
Qed.
(** digits 1 and 3 of [n] in base 2^32 exchanged, the sign kept *)
Definition exchanged (n : Z) : Z :=
  let d i := n mod 2 ^ 128 / 2 ^ (32 * i) mod 2 ^ 32 in
  d 0 + 2 ^ 32 * d 3 + 2 ^ 64 * d 2 + 2 ^ 96 * d 1 + (if n <? 0 then - 2 ^ 128 else 0).
Lemma exchanged_u : forall n, fits_u 128 n -> exchanged n = swap13 n.
Proof.
  intros n [H0 H1]. unfold exchanged, swap13. cbn zeta. rewrite (Z.mod_small n) by lia.
  destruct (Z.ltb_spec n 0); [lia|]. change (32 * 0) with 0. rewrite Z.pow_0_r, Z.div_1_r. 
  change (32 * 3) with 96. change (32 * 2) with 64. change (32 * 1) with 32. lia.
Qed.
Lemma exchanged_s : forall n, exchanged n = swap13s n.
Proof.
  intros n. unfold exchanged, swap13s, swap13. cbn zeta. change (32 * 0) with 0. rewrite Z.pow_0_r, Z.div_1_r.
  change (32 * 3) with 96. change (32 * 2) with 64. change (32 * 1) with 32. destruct (n <? 0); lia.
Qed.
Theorem C43_mul_exchanged : forall (c : Cfg) x n, Valid -> W = 32 -> wf x ->
  (fits_u 128 n -> returns_s (wrapping_us SMul K128 true x n) (swrap BITS (sval x * exchanged n))) /\
  (fits_s 128 n -> returns_s (wrapping_is SMul K128 x n) (swrap BITS (sval x * exchanged n))).
Proof.
  intros c x n HV E Hx. split; intros Hn; apply (retS HV).
  - rewrite exchanged_u by auto. apply (swapped_mul HV); auto.
  - rewrite exchanged_s by auto. apply (swapped_mul_i HV); auto.
Qed.
(** The scalars for which the multiplications are right. *)
Theorem C43_mul_partial : forall (c : Cfg) x n, Valid -> W = 32 -> wf x ->
  n mod 2 ^ 128 / 2 ^ 32 mod 2 ^ 32 = n mod 2 ^ 128 / 2 ^ 96 mod 2 ^ 32 ->
  (fits_u 128 n -> returns_s (wrapping_us SMul K128 true x n) (swrap BITS (sval x * n))) /\
  (fits_s 128 n -> returns_s (wrapping_is SMul K128 x n) (swrap BITS (sval x * n))).
Proof.
  intros c x n HV E Hx Hd.
  assert (K : (fits_u 128 n \/ fits_s 128 n) -> exchanged n = n).
  { intros Hn. unfold exchanged. cbn zeta. change (32 * 0) with 0. rewrite Z.pow_0_r, Z.div_1_r.
    change (32 * 3) with 96. change (32 * 2) with 64. change (32 * 1) with 32. rewrite <- Hd.
    set (u := n mod 2 ^ 128) in *. assert (U : 0 <= u < 2 ^ 128) by (apply Z.mod_pos_bound; lia).
    assert (EU : u + (if n <? 0 then - 2 ^ 128 else 0) = n).
    { unfold fits_u, fits_s in Hn. change (128 - 1) with 127 in Hn. unfold u. destruct (Z.ltb_spec n 0).
      - rewrite <- (Z.mod_add n 1) by lia. rewrite Z.mod_small by lia. lia.
      - rewrite Z.mod_small by lia. lia. }
    rewrite <- EU at 2. f_equal.
    pose proof (Z.div_mod u (2 ^ 32) ltac:(lia)) as D0.
    pose proof (Z.div_mod (u / 2 ^ 32) (2 ^ 32) ltac:(lia)) as D1.
    pose proof (Z.div_mod (u / 2 ^ 64) (2 ^ 32) ltac:(lia)) as D2.
    replace (u / 2 ^ 32 / 2 ^ 32) with (u / 2 ^ 64) in D1 by (rewrite Z.div_div by lia; reflexivity).
    replace (u / 2 ^ 64 / 2 ^ 32) with (u / 2 ^ 96) in D2 by (rewrite Z.div_div by lia; reflexivity).
    assert (D3 : (u / 2 ^ 96) mod 2 ^ 32 = u / 2 ^ 96).
    { apply Z.mod_small. split; [apply Z.div_pos; lia|apply Z.div_lt_upper_bound; lia]. }
    lia. }
  destruct (C43_mul_exchanged c x n HV E Hx) as [A B]. split; intros Hn.
  - rewrite <- (K (or_introl Hn)) at 2. auto.
  - rewrite <- (K (or_intror Hn)) at 2. auto.
Qed.
Example C43_ex1 : exchanged (2 ^ 32 * 7 + 2 ^ 96 * 9 + 11) = 2 ^ 32 * 9 + 2 ^ 96 * 7 + 11 /\ exchanged (-1) = -1.
Proof. vm_compute. auto. Qed.
Example C43_ex2 : @wrapping_is c256_32 SMul K128 (E32 (- 3)) (2 ^ 64 * 5 - 2 ^ 127) = Ok (E32 (- 3 * exchanged (2 ^ 64 * 5 - 2 ^ 127))) /\
  @wrapping_us c512_32 SMul K128 true (E512 (- 3)) (2 ^ 64 * 5 + 4) = Ok (E512 (- 3 * (2 ^ 64 * 5 + 4))).
Proof. vm_compute. auto. Qed.

(** ** C09: unsigned division by one limb *)

Theorem C09_div_rem : forall (c : Cfg) k x n, Valid -> wf x -> kbits k <= W -> fits_u (kbits k) n -> n <> 0 ->
  returns_u_with (wrapping_div_rem_us k false x n) (uval x / n) (uval x mod n) /\
  returns_u_with (div_rem_us k false x n) (uval x / n) (uval x mod n).
Proof.
  intros c k x n HV Hx Hk Hn H0. assert (P : 0 < n) by (destruct Hn; lia).
  split; apply (withU HV); try (apply (div_fits HV); auto).
  - rewrite (wrapping_div_rem_us_ok HV) by (auto using limb_exact). reflexivity.
  - rewrite (div_rem_us_ok HV) by (auto using limb_exact). reflexivity.
Qed.
Theorem C09_checked_div_rem : forall (c : Cfg) k x n, Valid -> wf x -> kbits k <= W -> fits_u (kbits k) n ->
  (n = 0 -> checked_div_rem_us k false x n = Ok None) /\
  (n <> 0 -> exists q, checked_div_rem_us k false x n = Ok (Some (q, uval x mod n)) /\ wf q /\ uval q = uval x / n).
Proof.
  intros c k x n HV Hx Hk Hn. rewrite (checked_div_rem_us_ok HV) by (auto using limb_exact). cbn [val].
  split; intros H; destruct (Z.eqb_spec n 0); try contradiction; [reflexivity|].
  exists (ofZ (uval x / n)). repeat split; try apply (wf_ofZ HV). apply (val_ofZ_small HV false). apply (div_fits HV); auto. destruct Hn; lia.
Qed.
Theorem C09_zero : forall (c : Cfg) k x, Valid -> wf x -> kbits k <= W ->
  wrapping_div_rem_us k false x 0 = Panic /\ div_rem_us k false x 0 = Panic.
Proof.
  intros c k x HV Hx Hk. assert (F : fits_u (kbits k) 0).
  { pose proof (dbits_1 HV k). pose proof (pow2_pos (kbits k)). unfold fits_u. lia. }
  assert (P : wrapping_div_rem_us k false x 0 = Panic).
  { apply (wrapping_div_rem_us_panic HV); auto. unfold scalar_outcome. destruct (Z.leb_spec (kbits k) W); [reflexivity|lia]. }
  split; auto. unfold div_rem_us. rewrite P. destruct chk; reflexivity.
Qed.
Example C09_ex1 : @wrapping_div_rem_us c256_64 KLimb false (E64 (2 ^ 255 + 12345)) (2 ^ 64 - 59)
    = Ok (E64 ((2 ^ 255 + 12345) / (2 ^ 64 - 59)), (2 ^ 255 + 12345) mod (2 ^ 64 - 59)) /\
  @div_rem_us c256_32 K32 false (E32 (2 ^ 255 + 12345)) (2 ^ 32 - 5) = Ok (E32 ((2 ^ 255 + 12345) / (2 ^ 32 - 5)), (2 ^ 255 + 12345) mod (2 ^ 32 - 5)) /\
  @div_rem_us c384_64 K64 false (E384 (2 ^ 383 + 12345)) (10 ^ 19) = Ok (E384 ((2 ^ 383 + 12345) / 10 ^ 19), (2 ^ 383 + 12345) mod 10 ^ 19).
Proof. vm_compute. auto. Qed.
Example C09_ex2 : @checked_div_rem_us c256_64 KLimb false (E64 77) 0 = Ok None /\ @wrapping_div_rem_us c256_64 KLimb false (E64 77) 0 = Panic.
Proof. vm_compute. auto. Qed.

(** ** C49: signed division by one limb

    By an unsigned limb the quotient is rounded down and the remainder is
    non-negative; by a signed limb the quotient is truncated. *)

Theorem C49_div_rem_unsigned_limb : forall (c : Cfg) k x n, Valid -> wf x -> kbits k <= W -> fits_u (kbits k) n -> n <> 0 ->
  returns_s_with (wrapping_div_rem_us k true x n) (sval x / n) (sval x mod n) /\
  returns_s_with (div_rem_us k true x n) (sval x / n) (sval x mod n).
Proof.
  intros c k x n HV Hx Hk Hn H0. assert (P : 0 < n) by (destruct Hn; lia).
  rewrite <- (swrap_small BITS (sval x / n)) by (auto using (BITS_pos HV), (sdiv_fits HV)).
  split; apply (withS HV).
  - rewrite (wrapping_div_rem_us_ok HV) by (auto using limb_exact). reflexivity.
  - rewrite (div_rem_us_ok HV) by (auto using limb_exact). reflexivity.
Qed.
Theorem C49_div_rem_signed_limb : forall (c : Cfg) k x n, Valid -> wf x -> kbits k <= W -> fits_s (kbits k) n -> n <> 0 ->
  returns_s_with (wrapping_div_rem_is k x n) (swrap BITS (Z.quot (sval x) n)) (Z.rem (sval x) n) /\
  (fits_s BITS (Z.quot (sval x) n) <-> ~ (sval x = - 2 ^ (BITS - 1) /\ n = -1)).
Proof.
  intros c k x n HV Hx Hk Hn H0. split.
  - apply (withS HV). rewrite (wrapping_div_rem_is_ok HV) by (auto using limb_exact). reflexivity.
  - pose proof (sval_range HV x Hx) as R. pose proof (pBh HV) as P2. unfold fits_s in *. split.
    + intros H [E1 ->]. rewrite E1 in H. change (-1) with (- (1)) in H. rewrite Z.quot_opp_opp, Z.quot_1_r in H by lia. lia.
    + intros H. destruct (quot_abs (sval x) n H0) as [Eq _].
      assert (0 <= Z.abs (sval x) / Z.abs n) by (apply Z.div_pos; lia).
      destruct (Z.eq_dec (Z.abs n) 1) as [E1|E1].
      * rewrite E1, Z.div_1_r in *. destruct (Z.ltb_spec (sval x) 0), (Z.ltb_spec n 0); cbn [xorb] in Eq; rewrite Eq; lia.
      * assert (Z.abs (sval x) / Z.abs n <= Z.abs (sval x) / 2) by (apply Z.div_le_compat_l; lia).
        assert (Z.abs (sval x) / 2 <= 2 ^ (BITS - 1) / 2) by (apply Z.div_le_mono; lia).
        assert (2 ^ (BITS - 1) / 2 < 2 ^ (BITS - 1)) by (apply Z.div_lt; lia).
        rewrite Eq. destruct (xorb _ _); lia.
Qed.
(** The other forms report the one overflow, MIN / -1. *)
Theorem C49_overflow_signed_limb : forall (c : Cfg) k x n, Valid -> wf x -> kbits k <= W -> fits_s (kbits k) n -> n <> 0 ->
  (exists q f, overflowing_div_rem_is k x n = Ok (q, Z.rem (sval x) n, f) /\ wf q /\ sval q = swrap BITS (Z.quot (sval x) n) /\
    (f = true <-> ~ fits_s BITS (Z.quot (sval x) n))) /\
  (fits_s BITS (Z.quot (sval x) n) ->
    (exists q, checked_div_rem_is k x n = Ok (Some (q, Z.rem (sval x) n)) /\ wf q /\ sval q = Z.quot (sval x) n) /\
    returns_s_with (div_rem_is k x n) (Z.quot (sval x) n) (Z.rem (sval x) n)) /\
  (~ fits_s BITS (Z.quot (sval x) n) -> checked_div_rem_is k x n = Ok None /\ (chk = true -> div_rem_is k x n = Panic)).
Proof.
  intros c k x n HV Hx Hk Hn H0.
  rewrite (overflowing_div_rem_is_ok HV), (checked_div_rem_is_ok HV), (div_rem_is_ok HV) by (auto using limb_exact).
  destruct (Z.eqb_spec n 0); [contradiction|]. cbn [orb].
  destruct (fitsb_reflect true (Z.quot (sval x) n)) as [F|F]; cbn [negb]; cbn in F.
  - split; [|split].
    + exists (ofZ (Z.quot (sval x) n)), false. repeat split; try apply (wf_ofZ HV); try apply (sval_ofZ HV); intros; try discriminate; tauto.
    + intros _. split.
      * exists (ofZ (Z.quot (sval x) n)). repeat split; try apply (wf_ofZ HV). exact (val_ofZ_small HV true _ F).
      * rewrite andb_false_r. exists (ofZ (Z.quot (sval x) n)). repeat split; try apply (wf_ofZ HV). exact (val_ofZ_small HV true _ F).
    + intros H. contradiction.
  - split; [|split].
    + exists (ofZ (Z.quot (sval x) n)), true. repeat split; try apply (wf_ofZ HV); try apply (sval_ofZ HV); auto.
    + intros H. contradiction.
    + intros _. split; auto. intros ->. reflexivity.
Qed.
Example C49_ex1 : @wrapping_div_rem_us c256_64 KLimb true (E64 (- 65)) 64 = Ok (E64 (- 2), 63) /\
  @div_rem_us c256_32 K32 true (E32 (- 2 ^ 255)) 3 = Ok (E32 (- 2 ^ 255 / 3), (- 2 ^ 255) mod 3).
Proof. vm_compute. auto. Qed.
Example C49_ex2 : @wrapping_div_rem_is c256_64 K64 (E64 (- 65)) (- 64) = Ok (E64 1, -1) /\
  @overflowing_div_rem_is c256_32 KLimb (E32 (- 2 ^ 255)) (-1) = Ok (E32 (- 2 ^ 255), 0, true) /\
  @checked_div_rem_is c384_64 KLimb (E384 (- 2 ^ 383)) (-1) = Ok None /\
  @div_rem_is c256_64 K32 (E64 (2 ^ 200)) (- 7) = Ok (E64 (Z.quot (2 ^ 200) (- 7)), Z.rem (2 ^ 200) (- 7)).
Proof. vm_compute. auto. Qed.

(** ** C50: division by scalars wider than a limb

    The property is that C09 and C49 hold for every kind of scalar.  It fails
    in three ways. *)

(** A non-zero divisor can panic … *)
Theorem C50_panic_refuted : exists (c : Cfg) x n, Valid /\ wf x /\ fits_u (kbits KWide) n /\ n <> 0 /\
  wrapping_div_rem_us KWide false x n = Panic /\ checked_div_rem_us K128 false x n = Panic.
Proof.
  exists c256_64, (E64 (2 ^ 191)), (2 ^ 127 + 2 ^ 64 - 1). split; [exact valid_c256_64|]. split; [exact (wf_ofZ valid_c256_64 _)|].
  split; [vm_compute; split; discriminate || reflexivity|]. split; [lia|]. vm_compute. auto.
Qed.
(** … the remainder can be wrong, even larger than the divisor … *)
Theorem C50_remainder_refuted : exists (c : Cfg) x n q r, Valid /\ wf x /\ fits_u (kbits K128) n /\ n <> 0 /\
  wrapping_div_rem_us K128 false x n = Ok (q, r) /\ uval q = uval x / n /\ r <> uval x mod n /\ n <= r.
Proof.
  exists c256_32, (E32 (2 ^ 95)), (2 ^ 63 + 2 ^ 32 - 1), (E32 4294967294), 18446744086594453502.
  split; [exact valid_c256_32|]. split; [exact (wf_ofZ valid_c256_32 _)|].
  split; [vm_compute; split; discriminate || reflexivity|]. split; [lia|].
  split; [vm_compute; reflexivity|]. split; [vm_compute; reflexivity|]. split; [vm_compute; discriminate|lia].
Qed.
(** … and zero divided by zero does not panic in builds without overflow checks. *)
Theorem C50_zero_refuted : exists (c : Cfg) x, Valid /\ wf x /\
  div_rem_us KWide false x 0 = Ok (x, 0) /\ div_rem_us K64 true x 0 = Ok (x, 0).
Proof.
  exists c512_32, (E512 0). split; [exact valid_c512_32|]. split; [exact (wf_ofZ valid_c512_32 _)|].
  vm_compute. auto.
Qed.
(** The exact cases ([exact_scalar], DivSpec.v): the numerator has at most two
    limbs or is at most the divisor, the divisor has one limb, or no quotient
    digit has to be corrected (for two-limb scalars; for longer ones, no
    correction that leaves a carry in the low 128 bits). *)
Theorem C50_unsigned_partial : forall (c : Cfg) k x n, Valid -> wf x -> fits_u (kbits k) n -> n <> 0 ->
  exact_scalar W N (kbits k) (uval x) n ->
  returns_u_with (wrapping_div_rem_us k false x n) (uval x / n) (uval x mod n) /\
  returns_u_with (div_rem_us k false x n) (uval x / n) (uval x mod n) /\
  (exists q, checked_div_rem_us k false x n = Ok (Some (q, uval x mod n)) /\ wf q /\ uval q = uval x / n).
Proof.
  intros c k x n HV Hx Hn H0 HE. assert (P : 0 < n) by (destruct Hn; lia).
  assert (HE' : exact_scalar W N (kbits k) (Z.abs (val false x)) n).
  { cbn [val]. pose proof (uval_range HV x Hx). rewrite Z.abs_eq by lia. auto. }
  split; [|split].
  - apply (withU HV); [|apply (div_fits HV); auto]. rewrite (wrapping_div_rem_us_ok HV) by auto. reflexivity.
  - apply (withU HV); [|apply (div_fits HV); auto]. rewrite (div_rem_us_ok HV) by auto. reflexivity.
  - rewrite (checked_div_rem_us_ok HV) by auto. destruct (Z.eqb_spec n 0); [contradiction|].
    exists (ofZ (uval x / n)). repeat split; try apply (wf_ofZ HV). apply (val_ofZ_small HV false). apply (div_fits HV); auto.
Qed.
Theorem C50_signed_partial : forall (c : Cfg) k x n, Valid -> wf x -> n <> 0 ->
  exact_scalar W N (kbits k) (Z.abs (sval x)) (Z.abs n) ->
  (fits_u (kbits k) n -> returns_s_with (wrapping_div_rem_us k true x n) (sval x / n) (sval x mod n)) /\
  (fits_s (kbits k) n -> returns_s_with (wrapping_div_rem_is k x n) (swrap BITS (Z.quot (sval x) n)) (Z.rem (sval x) n)).
Proof.
  intros c k x n HV Hx H0 HE. split; intros Hn.
  - assert (P : 0 < n) by (destruct Hn; lia). rewrite (Z.abs_eq n) in HE by lia.
    rewrite <- (swrap_small BITS (sval x / n)) by (auto using (BITS_pos HV), (sdiv_fits HV)).
    apply (withS HV). rewrite (wrapping_div_rem_us_ok HV) by auto. reflexivity.
  - apply (withS HV). rewrite (wrapping_div_rem_is_ok HV) by auto. reflexivity.
Qed.
(** The unsigned result in every case, including panics. *)
Theorem C50_unsigned_outcome : forall (c : Cfg) k x n, Valid -> wf x -> fits_u (kbits k) n ->
  match scalar_outcome W N (kbits k) (uval x) n with
  | Some (q, r) => exists l, wrapping_div_rem_us k false x n = Ok (l, r) /\ wf l /\ uval l = q mod 2 ^ BITS
  | None => wrapping_div_rem_us k false x n = Panic
  end.
Proof.
  intros c k x n HV Hx Hn. rewrite (u_wrapping_div_rem_us_all HV) by auto.
  destruct (scalar_outcome _ _ _ _ _) as [[q r]|]; cbn [lift2]; auto.
  exists (ofZ q). repeat split; try apply (wf_ofZ HV). apply (uval_ofZ HV).
Qed.
(** Whenever there is an answer for a non-zero divisor, its quotient is right. *)
Theorem C50_quotient : forall (c : Cfg) k x n q r, Valid -> wf x -> fits_u (kbits k) n -> n <> 0 ->
  wrapping_div_rem_us k false x n = Ok (q, r) -> wf q /\ uval q = uval x / n.
Proof.
  intros c k x n q r HV Hx Hn H0 H. rewrite (u_wrapping_div_rem_us_all HV) in H by auto.
  assert (P : 0 < n) by (destruct Hn; lia).
  assert (F : exists r', scalar_outcome W N (kbits k) (uval x) n = Some (uval x / n, r') \/ scalar_outcome W N (kbits k) (uval x) n = None).
  { unfold scalar_outcome. destruct (Z.eqb_spec n 0); [contradiction|]. destruct (_ <=? W); [eexists; left; reflexivity|].
    destruct (Z.eqb_spec (uval x) 0) as [->|]; [rewrite Z.div_0_l by auto; eexists; left; reflexivity|].
    destruct (_ <=? 2 * W); [|eexists; left; reflexivity]. destruct (_ && _); [exists 0; right; reflexivity|eexists; left; reflexivity]. }
  destruct F as [r' [F|F]]; rewrite F in H; [|discriminate]. inversion H. subst. split; [apply (wf_ofZ HV)|].
  apply (val_ofZ_small HV false). apply (div_fits HV); auto.
Qed.
Example C50_ex1 : exact_scalar 64 4 128 (2 ^ 200 + 99) (2 ^ 100 + 7) /\
  @wrapping_div_rem_us c256_64 K128 false (E64 (2 ^ 200 + 99)) (2 ^ 100 + 7) = Ok (E64 ((2 ^ 200 + 99) / (2 ^ 100 + 7)), (2 ^ 200 + 99) mod (2 ^ 100 + 7)).
Proof. split; [|vm_compute; reflexivity]. right. right. right. right. left. split; [lia|vm_compute; reflexivity]. Qed.
Example C50_ex2 : exact_scalar 32 8 128 (2 ^ 200 + 99) (2 ^ 100 + 7) /\
  @wrapping_div_rem_is c256_32 K128 (E32 (- 2 ^ 200 - 99)) (2 ^ 100 + 7)
  = Ok (E32 (Z.quot (- 2 ^ 200 - 99) (2 ^ 100 + 7)), Z.rem (- 2 ^ 200 - 99) (2 ^ 100 + 7)).
Proof. split; [|vm_compute; reflexivity]. right. right. right. right. right. split; [lia|vm_compute; reflexivity]. Qed.
Example C50_ex3 : scalar_outcome 64 4 128 (2 ^ 191) (2 ^ 127 + 2 ^ 64 - 1) = None /\
  scalar_outcome 32 8 128 (2 ^ 95) (2 ^ 63 + 2 ^ 32 - 1) = Some (4294967294, 18446744086594453502) /\
  @wrapping_div_rem_us c256_32 K64 true (E32 (- 2 ^ 100)) (2 ^ 40) = Ok (E32 (- 2 ^ 60), 0).
Proof. vm_compute. auto. Qed.

(** ** Assumptions (each must print "Closed under the global context") *)

Print Assumptions C41_wrapping.
Print Assumptions C41_overflowing.
Print Assumptions C41_checked.
Print Assumptions C41_plain.
Print Assumptions C42_wrapping_unsigned_scalar.
Print Assumptions C42_wrapping_signed_scalar.
Print Assumptions C42_overflowing_unsigned_scalar.
Print Assumptions C42_overflowing_signed_scalar.
Print Assumptions C42_checked.
Print Assumptions C42_plain.
Print Assumptions C42_overflowing_mul.
Print Assumptions C42_overflowing_mul_refuted.
Print Assumptions C43_add_refuted.
Print Assumptions C43_mul_refuted.
Print Assumptions C43_add_sub_panic.
Print Assumptions C43_mul_exchanged.
Print Assumptions C43_mul_partial.
Print Assumptions C09_div_rem.
Print Assumptions C09_checked_div_rem.
Print Assumptions C09_zero.
Print Assumptions C49_div_rem_unsigned_limb.
Print Assumptions C49_div_rem_signed_limb.
Print Assumptions C49_overflow_signed_limb.
Print Assumptions C50_panic_refuted.
Print Assumptions C50_remainder_refuted.
Print Assumptions C50_zero_refuted.
Print Assumptions C50_unsigned_partial.
Print Assumptions C50_signed_partial.
Print Assumptions C50_unsigned_outcome.
Print Assumptions C50_quotient.
