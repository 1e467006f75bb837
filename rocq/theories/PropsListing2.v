(** * The listing of the rotation, and corrected listings *)

Require Import ZArith List Bool Lia.
From Verif Require Import Prim Spec Facts MAdd PAdd PAddS MShift PShift MListing PListing PropsListing.
Import ListNotations.
Local Open Scope Z_scope.

(** ** What the function computes on two 16-bit limbs *)

Definition swapped (n : Z) : bool := negb (Z.land (n mod 256) 16 =? 0).
Definition halves (x0 x1 d : Z) : list Z :=
  if d =? 0 then [x0; x1]
  else [Z.lor ((x0 * 2 ^ d) mod 2 ^ 16) (x1 / 2 ^ (16 - d)); Z.lor ((x1 * 2 ^ d) mod 2 ^ 16) (x0 / 2 ^ (16 - d))].


Lemma mod_of_mod : forall n a b, 0 < a -> 0 < b -> (n mod (a * b)) mod a = n mod a.
Proof. intros n a b Ha Hb. rewrite Z.rem_mul_r by lia. rewrite (Z.mul_comm a ((n / a) mod b)), Z.mod_add, Z.mod_mod by lia. auto. Qed.

Lemma swapped_eq : forall n, swapped n = (16 <=? n mod 32).
Proof.
  intros n. unfold swapped. rewrite <- (mod_of_mod n 32 8) by lia. change (32 * 8) with 256.
  pose proof (Z.mod_pos_bound n 256 ltac:(lia)) as H. set (m := n mod 256) in *. clearbody m.
  assert (F : forallb (fun i => eqb (negb (Z.land (Z.of_nat i) 16 =? 0)) (16 <=? Z.of_nat i mod 32)) (seq 0 256) = true) by (vm_compute; reflexivity).
  rewrite forallb_forall in F. specialize (F (Z.to_nat m)). rewrite Z2Nat.id in F by lia.
  apply eqb_prop. apply F. apply in_seq. lia.
Qed.
Lemma neg_amount : forall n, Z.land ((- (n mod 256)) mod 256) 15 = (- n) mod 16.
Proof.
  intros n. change 15 with (Z.ones 4). rewrite Z.land_ones by lia. change (2 ^ 4) with 16.
  rewrite (mod_of_mod _ 16 16) by lia.
  replace (- (n mod 256)) with (- n + (n / 256) * 16 * 16) by (rewrite (Z.mod_eq n 256) by lia; lia).
  rewrite Z.mod_add by lia. auto.
Qed.

Lemma rotl16 : forall c lo hi n, 0 <= lo < 2 ^ 16 -> 0 <= hi < 2 ^ 16 -> 0 <= n ->
  @rotl_array c 16 [lo; hi] n = Ok (if swapped n then halves hi lo (n mod 16) else halves lo hi (n mod 16)).
Proof.
  intros c lo hi n Hl Hh Hn. unfold rotl_array. cbn [length Nat.leb assert_ bind].
  change (umul 32 (Z.of_nat 2) 16) with (@Ok Z 32). cbn [bind]. unfold urem. cbn [Z.eqb bind].
  rewrite swapped_eq. rewrite <- (mod_of_mod n 16 2) by lia. change (16 * 2) with 32.
  pose proof (Z.mod_pos_bound n 32 ltac:(lia)) as H. set (m := n mod 32) in *. clearbody m.
  unfold limb_amount, bits_amount. change (16 - 1) with (Z.ones 4). rewrite Z.land_ones by lia. change (2 ^ 4) with 16.
  change (Z.log2 16) with 4. rewrite Z.shiftr_div_pow2 by lia. change (2 ^ 4) with 16.
  pose proof (Z.mod_pos_bound m 16 ltac:(lia)) as Hd. pose proof (Z.div_mod m 16 ltac:(lia)) as Em.
  set (d := m mod 16) in *. clearbody d. set (q := m / 16) in *. clearbody q.
  unfold usub. rewrite uchk_ok by lia. cbn [bind].
  destruct (Z.leb_spec 16 m) as [L|L].
  - replace q with 1 by lia. change (Z.to_nat 1) with 1%nat. cbn [Z.to_nat Pos.to_nat Pos.iter_op Nat.eqb negb length repeat get nth_error bind]. unfold halves. destruct (Z.eqb_spec d 0); [reflexivity|].
    rewrite !ushl_ok, !ushr_ok by lia. reflexivity.
  - replace q with 0 by lia. cbn [Z.to_nat Pos.to_nat Pos.iter_op Nat.eqb negb length repeat get nth_error bind]. unfold halves. destruct (Z.eqb_spec d 0); [reflexivity|].
    rewrite !ushl_ok, !ushr_ok by lia. reflexivity.
Qed.

(** ** Running the listing *)

Definition ends (p : list instr) (st : state) (P : state -> Prop) : Prop := exists st', run p false st = Some st' /\ P st'.
Lemma ends_step : forall i t st st' P, step i st = Some st' -> ends t st' P -> ends (i :: t) st P.
Proof. intros i t st st' P H (s & E & HP). exists s. split; auto. rewrite (run_step _ _ _ _ H). auto. Qed.
Lemma ends_shl : forall a b t st P,
  (forall c o z, ends t (St (put a ((regs st a mod 2 ^ 32 * 2 ^ (regs st b mod 2 ^ 8 mod 32)) mod 2 ^ 32) (regs st)) (mem st) c o z) P) ->
  ends (SHL S32 (R a) (R b) :: t) st P.
Proof.
  intros a b t st P H. eapply ends_step; [reflexivity|]. cbn [read width].
  destruct (_ =? 0); cbn [regs mem flags cf of zf]; apply H.
Qed.
Lemma ends_shr : forall a b t st P,
  (forall c o z, ends t (St (put a ((regs st a mod 2 ^ 32 / 2 ^ (regs st b mod 2 ^ 8 mod 32)) mod 2 ^ 32) (regs st)) (mem st) c o z) P) ->
  ends (SHR S32 (R a) (R b) :: t) st P.
Proof.
  intros a b t st P H. eapply ends_step; [reflexivity|]. cbn [read width].
  destruct (_ =? 0); cbn [regs mem flags cf of zf]; apply H.
Qed.
Lemma ends_shl16 : forall a t st P,
  ends t (St (put a ((regs st a mod 2 ^ 32 * 2 ^ 16) mod 2 ^ 32) (regs st)) (mem st) None None (Some ((regs st a mod 2 ^ 32 * 2 ^ 16) mod 2 ^ 32 =? 0))) P ->
  ends (SHL S32 (R a) (I 16) :: t) st P.
Proof. intros. eapply ends_step; [reflexivity|]. exact H. Qed.
Lemma ends_shr16 : forall a t st P,
  ends t (St (put a ((regs st a mod 2 ^ 32 / 2 ^ 16) mod 2 ^ 32) (regs st)) (mem st) None None (Some ((regs st a mod 2 ^ 32 / 2 ^ 16) mod 2 ^ 32 =? 0))) P ->
  ends (SHR S32 (R a) (I 16) :: t) st P.
Proof. intros. eapply ends_step; [reflexivity|]. exact H. Qed.
Lemma ends_movzx : forall a b t st P,
  ends t (St (put a (regs st b mod 2 ^ 16) (regs st)) (mem st) (cf st) (of st) (zf st)) P -> ends (MOVZX S32 (R a) S16 (R b) :: t) st P.
Proof. intros. eapply ends_step; [reflexivity|]. exact H. Qed.
Lemma ends_je : forall t st b P, zf st = Some b -> (exists st', run t b st = Some st' /\ P st') -> ends (JE :: t) st P.
Proof. intros t st b P E (s & H & HP). exists s. split; auto. cbn [run]. rewrite E. auto. Qed.
Lemma ends_label : forall t st P, ends t st P -> ends (LABEL :: t) st P.
Proof. intros t st P (s & H & HP). exists s. auto. Qed.
Lemma ends_ret : forall t (st : state) (P : state -> Prop), P st -> ends (RET :: t) st P.
Proof. intros. exists st. auto. Qed.

Ltac go1 := match goal with
  | |- ends (SHL S32 (R _) (R _) :: _) _ _ => apply ends_shl; intros ? ? ?; cbn [regs mem put reg_eqb]
  | |- ends (SHR S32 (R _) (R _) :: _) _ _ => apply ends_shr; intros ? ? ?; cbn [regs mem put reg_eqb]
  | |- ends (SHL S32 (R _) (I 16) :: _) _ _ => apply ends_shl16; cbn [regs mem put reg_eqb]
  | |- ends (SHR S32 (R _) (I 16) :: _) _ _ => apply ends_shr16; cbn [regs mem put reg_eqb]
  | |- ends (MOVZX S32 (R _) S16 (R _) :: _) _ _ => apply ends_movzx; cbn [regs mem put reg_eqb MListing.cf MListing.of MListing.zf]
  | |- ends (LABEL :: _) _ _ => apply ends_label
  | |- ends (RET :: _) _ _ => apply ends_ret; cbv beta
  | |- ends (?i :: ?t) ?st _ =>
    let e := see (step i st) in match e with Some ?s => apply (ends_step i t st s _ eq_refl) end
  end.

Lemma lor_mod : forall k a b, 0 <= k -> Z.lor a b mod 2 ^ k = Z.lor (a mod 2 ^ k) (b mod 2 ^ k).
Proof. intros. rewrite <- !Z.land_ones by auto. apply Z.land_lor_distr_l. Qed.
Lemma mod16_32 : forall a, (a mod 2 ^ 32) mod 2 ^ 16 = a mod 2 ^ 16.
Proof. intros. apply (mod_of_mod a (2 ^ 16) (2 ^ 16)); lia. Qed.

(** The last three instructions put the halves together. *)
Lemma joined : forall h l,
  let v := Z.lor ((h mod 2 ^ 32 * 2 ^ 16) mod 2 ^ 32 mod 2 ^ 32) (l mod 2 ^ 16 mod 2 ^ 32) in
  v mod 2 ^ 16 = l mod 2 ^ 16 /\ v / 2 ^ 16 = h mod 2 ^ 16.
Proof.
  intros h l. cbv zeta.
  pose proof (Z.mod_pos_bound l (2 ^ 16) ltac:(lia)) as Hl.
  rewrite (Z.mod_small (l mod 2 ^ 16)) by lia. rewrite Z.mod_mod by lia.
  assert (E : (h mod 2 ^ 32 * 2 ^ 16) mod 2 ^ 32 = h mod 2 ^ 16 * 2 ^ 16).
  { change (2 ^ 32) with (2 ^ 16 * 2 ^ 16) at 2. rewrite Z.mul_mod_distr_r by lia. rewrite mod16_32. auto. }
  rewrite E, lor_add by lia. set (a := h mod 2 ^ 16). set (b := l mod 2 ^ 16) in *. clearbody a b. split.
  - symmetry. apply Z.mod_unique with a; lia.
  - symmetry. apply Z.div_unique with b; lia.
Qed.

Lemma put8 : forall o v, 0 <= v < 2 ^ 8 -> (o - o mod 2 ^ 8 + v) mod 2 ^ 8 = v.
Proof.
  intros o v H. symmetry. apply Z.mod_unique with (o / 2 ^ 8); [lia|].
  rewrite (Z.mod_eq o (2 ^ 8)) by lia. lia.
Qed.
(** The second amount. *)
Lemma inverse : forall o, o mod 16 <> 0 ->
  (((o - o mod 2 ^ 8 + (- (o mod 2 ^ 8)) mod 2 ^ 8 - (o - o mod 2 ^ 8 + (- (o mod 2 ^ 8)) mod 2 ^ 8) mod 2 ^ 8 +
     Z.land ((o - o mod 2 ^ 8 + (- (o mod 2 ^ 8)) mod 2 ^ 8) mod 2 ^ 8) (15 mod 2 ^ 8)) mod 2 ^ 32) mod 2 ^ 8) mod 32 = 16 - o mod 16.
Proof.
  intros o H. rewrite (mod_of_mod _ (2 ^ 8) (2 ^ 24)) by lia.
  rewrite (put8 o) by (apply Z.mod_pos_bound; lia). change (15 mod 2 ^ 8) with 15.
  change (2 ^ 8) with 256. rewrite neg_amount. pose proof (Z.mod_pos_bound (- o) 16 ltac:(lia)).
  set (u := o - o mod 256 + - (o mod 256) mod 256).
  assert (E : u mod 256 = (- (o mod 256)) mod 256) by (apply (put8 o); apply Z.mod_pos_bound; lia).
  rewrite <- E. change 256 with (2 ^ 8). rewrite put8 by lia. rewrite Z.mod_small by lia.
  rewrite Z.mod_opp_l_nz by lia. auto.
Qed.

(** From the jump on: [eax] and [r8d] have the halves in their low 16 bits, [edx]
    the amount. *)
Lemma rotate_tail : forall st d, d = regs st RSI mod 16 -> regs st RDX = d -> zf st = Some (d =? 0) ->
  0 <= regs st RAX < 2 ^ 32 -> 0 <= regs st R8 < 2 ^ 32 ->
  ends (skipn 8 doc_rotate16) st (fun st' =>
    (forall r, In r [RBX; RSP; RBP; R12; R13; R14; R15] -> regs st' r = regs st r) /\ mem st' = mem st /\
    regs st' RAX mod 2 ^ 16 = nth 0 (halves (regs st R8 mod 2 ^ 16) (regs st RAX mod 2 ^ 16) d) 0 /\
    regs st' RAX / 2 ^ 16 = nth 1 (halves (regs st R8 mod 2 ^ 16) (regs st RAX mod 2 ^ 16) d) 0).
Proof.
  intros st d Ed ED EZ HA HB. assert (Hd : 0 <= d < 16) by (subst d; apply Z.mod_pos_bound; lia).
  cbn [skipn doc_rotate16]. eapply ends_je; [exact EZ|]. destruct st as [r m ? ? ?]. cbn [regs mem] in *.
  unfold halves. destruct (Z.eqb_spec d 0) as [D0|D0].
  - match goal with |- exists s, _ /\ @?P s => change (ends (skipn 26 doc_rotate16) {| regs := r; mem := m; cf := cf; of := of; zf := zf |} P) end.
    cbn [skipn doc_rotate16]. repeat go1. split; [saved|]. split; [reflexivity|]. cbn [regs put reg_eqb]. apply joined.
  - match goal with |- exists s, run ?p false ?st = _ /\ @?P s => change (ends p st P) end.
    repeat go1. split; [saved|]. split; [reflexivity|]. cbn [regs put reg_eqb nth].
    rewrite inverse by lia. rewrite ED, <- Ed. rewrite (Z.mod_small d (2 ^ 32)), (Z.mod_small d (2 ^ 8)), (Z.mod_small d 32) by lia.
    match goal with |- Z.lor (((?h mod _ * _) mod _) mod _) ((?l mod _) mod _) mod _ = _ /\ _ => destruct (joined h l) as (L & U) end.
    rewrite L, U. clear L U.
    assert (S : forall a, 0 <= a mod 2 ^ 16 / 2 ^ (16 - d) < 2 ^ 16).
    { intros a. pose proof (Z.mod_pos_bound a (2 ^ 16) ltac:(lia)). pose proof (Z.pow_pos_nonneg 2 (16 - d) ltac:(lia) ltac:(lia)).
      split; [apply Z.div_pos; lia|]. apply Z.div_lt_upper_bound; [lia|]. nia. }
    assert (T : forall a, (a * 2 ^ d) mod 2 ^ 16 = (a mod 2 ^ 16 * 2 ^ d) mod 2 ^ 16) by (intros; rewrite Zmult_mod_idemp_l; auto).
    pose proof (S (r RAX)). pose proof (S (r R8)).
    rewrite !(Z.mod_small (_ mod 2 ^ 16) (2 ^ 32)) by (pose proof (Z.mod_pos_bound (r RAX) (2 ^ 16)); pose proof (Z.mod_pos_bound (r R8) (2 ^ 16)); lia).
    rewrite ?mod16_32, !lor_mod, ?mod16_32 by lia.
    rewrite !(Z.mod_small (_ / 2 ^ (16 - d))) by auto.
    rewrite (T (r RAX mod 2 ^ 32 mod 2 ^ 32)), (T (r R8 mod 2 ^ 32)), !mod16_32. split; apply Z.lor_comm.
Qed.

Theorem C98_rotate : forall c st, sane st ->
  let x := regs st RDI mod 2 ^ 32 in
  let n := regs st RSI mod 2 ^ 32 in
  exists st', run doc_rotate16 false st = Some st' /\
  (forall r, In r [RBX; RSP; RBP; R12; R13; R14; R15] -> regs st' r = regs st r) /\
  mem st' = mem st /\ sane st' /\
  @rotl_array c 16 [x mod 2 ^ 16; x / 2 ^ 16] n = Ok [regs st' RAX mod 2 ^ 16; regs st' RAX / 2 ^ 16].
Proof.
  intros c st H x n.
  assert (Hx : 0 <= x < 2 ^ 32) by (apply Z.mod_pos_bound; lia).
  assert (Hn : 0 <= n < 2 ^ 32) by (apply Z.mod_pos_bound; lia).
  assert (G : ends doc_rotate16 st (fun st' =>
    (forall r, In r [RBX; RSP; RBP; R12; R13; R14; R15] -> regs st' r = regs st r) /\ mem st' = mem st /\
    @rotl_array c 16 [x mod 2 ^ 16; x / 2 ^ 16] n = Ok [regs st' RAX mod 2 ^ 16; regs st' RAX / 2 ^ 16])).
  2: { destruct G as (s & E & A & B & C). exists s. repeat split; auto; eapply run_sane; eauto. }
  destruct st as [r m ? ? ?]. cbn [regs mem] in *. unfold doc_rotate16. do 8 go1.
  assert (D : Z.land ((r RSI mod 2 ^ 32) mod 2 ^ 32) (15 mod 2 ^ 32) = r RSI mod 16).
  { change (15 mod 2 ^ 32) with (Z.ones 4). rewrite Z.land_ones by lia. rewrite Z.mod_mod by lia. apply (mod_of_mod _ 16 (2 ^ 28)); lia. }
  rewrite D. change (16 mod 2 ^ 8) with 16. fold x. rewrite (Z.mod_small x), (Z.mod_small (x / 2 ^ 16 mod 2 ^ 32)) by (try apply Z.mod_pos_bound; lia).
  assert (Hh : 0 <= x / 2 ^ 16 < 2 ^ 16) by (split; [apply Z.div_pos; lia | apply Z.div_lt_upper_bound; lia]).
  rewrite (Z.mod_small (x / 2 ^ 16)) by lia.
  pose proof (Z.mod_pos_bound x (2 ^ 16) ltac:(lia)) as Hl.
  rewrite rotl16 by lia. replace (n mod 16) with (r RSI mod 16) by (symmetry; apply (mod_of_mod _ 16 (2 ^ 28)); lia).
  unfold swapped. replace (n mod 256) with (r RSI mod 256) by (symmetry; apply (mod_of_mod _ 256 (2 ^ 24)); lia). change (2 ^ 8) with 256.
  pose proof (Z.mod_pos_bound (r RSI) 16 ltac:(lia)) as Hd.
  destruct (Z.land (r RSI mod 256) 16 =? 0); cbn [negb].
  - match goal with |- ends _ ?s _ => destruct (rotate_tail s (r RSI mod 16)) as (s' & E & A & B & F & F'); try reflexivity; try (cbn [regs put reg_eqb]; lia) end.
    exists s'. split; [exact E|]. split; [|split]; auto.
    + intros q Hq. rewrite A by auto. cbn [In] in Hq. repeat (destruct Hq as [<-|Hq]; [reflexivity|]). destruct Hq.
    + cbn [regs put reg_eqb] in F, F'. rewrite (Z.mod_small (x / 2 ^ 16)) in F, F' by lia. rewrite F, F'. unfold halves. destruct (_ =? 0); reflexivity.
  - match goal with |- ends _ ?s _ => destruct (rotate_tail s (r RSI mod 16)) as (s' & E & A & B & F & F'); try reflexivity; try (cbn [regs put reg_eqb]; lia) end.
    exists s'. split; [exact E|]. split; [|split]; auto.
    + intros q Hq. rewrite A by auto. cbn [In] in Hq. repeat (destruct Hq as [<-|Hq]; [reflexivity|]). destruct Hq.
    + cbn [regs put reg_eqb] in F, F'. rewrite (Z.mod_small (x / 2 ^ 16)) in F, F' by lia. rewrite F, F'. unfold halves. destruct (_ =? 0); reflexivity.
Qed.

(** ** The corrected listings *)

Theorem C98_fix_sadd_ilimb : forall k d st, sane st ->
  gives fix_sadd_ilimb st (@sadd_wrapping_ilimb (x86 k d) (xs st) (yi st)).
Proof.
  intros k d st H. start st. enter fix_sadd_ilimb. limbs. unfold yi. cbn [regs].
  rewrite sadd_small by (auto; apply in4_intro; auto). f_equal. symmetry. fold (ext (r RDX)). pose proof (ext_range (r RDX)).
  apply add4; here.
Qed.
Theorem C98_fix_sadd_ilimb_flag : forall k d st, sane st ->
  gives_flag fix_sadd_ilimb_flag st (@sadd_overflowing_ilimb (x86 k d) (xs st) (yi st)).
Proof.
  intros k d st H. start st. enterf fix_sadd_ilimb_flag. limbs. unfold yi. cbn [regs].
  match goal with |- sadd_overflowing_ilimb [?a0; ?a1; ?a2; ?a3] _ = _ =>
    destruct (sadd_small_flag k d a0 a1 a2 a3 (r RDX)) as (f & E & F); auto; [apply in4_intro; auto|] end.
  rewrite E. clear E. fold (ext (r RDX)). pose proof (ext_range (r RDX)). f_equal. f_equal.
  - symmetry. rewrite top_add. eapply add4; here.
  - apply (same_flag _ _ _ F). rewrite xorb_comm, xor_add by auto. eapply add4_oflag; here.
Qed.
Theorem C98_fix_ssub_ilimb : forall k d st, sane st ->
  gives fix_ssub_ilimb st (@ssub_wrapping_ilimb (x86 k d) (xs st) (yi st)).
Proof.
  intros k d st H. start st. enter fix_ssub_ilimb. limbs. unfold yi. cbn [regs].
  rewrite ssub_small by (auto; apply in4_intro; auto). f_equal. symmetry. fold (ext (r RDX)). pose proof (ext_range (r RDX)).
  apply sub4; here.
Qed.

(** ** The documented numbers of instructions *)

(** The mnemonics the documentation counts; [mov] and [ret] it leaves out. *)
Inductive mnemonic := Add | Adc | Sub | Sbb | Set' | Xor | Sar | Shr | Other.
Definition mnemonic_of (i : instr) : option mnemonic :=
  match i with
  | MOV _ _ _ | RET => None
  | ADD _ _ _ => Some Add | ADC _ _ _ => Some Adc | SUB _ _ _ => Some Sub | SBB _ _ _ => Some Sbb
  | SETO _ | SETB _ => Some Set' | XOR _ _ _ => Some Xor | SAR _ _ _ => Some Sar | SHR _ _ _ => Some Shr
  | _ => Some Other
  end.
Definition mnemonic_eq : forall a b : mnemonic, {a = b} + {a <> b}.
Proof. decide equality. Defined.
Definition mnemonics (p : list instr) : list mnemonic :=
  flat_map (fun i => match mnemonic_of i with Some m => [m] | None => [] end) p.
(** [says p l]: the listing has exactly the counted instructions of [l]. *)
Definition says (p : list instr) (l : list (mnemonic * nat)) : Prop :=
  forall m, count_occ mnemonic_eq (mnemonics p) m = fold_right (fun '(n, k) s => if mnemonic_eq n m then k + s else s)%nat 0%nat l.

(** add.rs 27-29, 73-75, 120-122, 169-171, 363-365, 416-418, 489-491, 539-541,
    592-594, 631-633 and sub.rs 27-29, 75-77, 124-126, 173-175, 364-366, 414-416,
    487-489, 538-540, 590-593, 630-632 *)
Definition counted : list (list instr * list (mnemonic * nat)) := [
  (doc_add_full, [(Add, 1); (Adc, 3)]); (doc_add_full_flag, [(Add, 1); (Adc, 3); (Set', 1)]);
  (doc_add_limb, [(Add, 1); (Adc, 3)]); (doc_add_limb_flag, [(Add, 1); (Adc, 3); (Set', 1)]);
  (doc_sadd_full, [(Add, 1); (Adc, 3)]); (doc_sadd_full_flag, [(Add, 2); (Adc, 3); (Set', 2); (Xor, 1)]);
  (doc_sadd_ulimb, [(Add, 1); (Adc, 3)]); (doc_sadd_ulimb_flag, [(Add, 1); (Adc, 3); (Set', 1)]);
  (doc_sadd_ilimb, [(Add, 1); (Adc, 3); (Sar, 1)]); (doc_sadd_ilimb_flag, [(Add, 2); (Adc, 3); (Set', 2); (Xor, 1); (Sar, 1)]);
  (doc_sub_full, [(Sub, 1); (Sbb, 3)]); (doc_sub_full_flag, [(Sub, 1); (Sbb, 3); (Set', 1)]);
  (doc_sub_limb, [(Sub, 1); (Sbb, 3)]); (doc_sub_limb_flag, [(Sub, 1); (Sbb, 3); (Set', 1)]);
  (doc_ssub_full, [(Sub, 1); (Sbb, 3)]); (doc_ssub_full_flag, [(Sub, 2); (Sbb, 3); (Set', 2); (Xor, 1)]);
  (doc_ssub_ulimb, [(Sub, 1); (Sbb, 3)]); (doc_ssub_ulimb_flag, [(Sub, 1); (Sbb, 3); (Set', 1)]);
  (doc_ssub_ilimb, [(Add, 1); (Sub, 1); (Sbb, 3); (Shr, 1)]); (doc_ssub_ilimb_flag, [(Sub, 2); (Sbb, 3); (Set', 2); (Xor, 1); (Sar, 1)])]%nat.
Theorem C98_counts : Forall (fun '(p, l) => says p l) counted.
Proof. repeat constructor; intros []; vm_compute; reflexivity. Qed.

(** ** Examples *)

(** Two arrays at 4096 and 8192, the result at 12288; [rdx] is as given. *)
Definition here_ (l : list Z) (a p : Z) : Z :=
  if (a <=? p) && (p <? a + 32) then (lval 64 l / 256 ^ (p - a)) mod 256 else 0.
Definition demo (dx : Z) (l : list Z) : state := St
  (fun r => match r with RDI => 12288 | RSI => 4096 | RDX => dx mod Q | RBX => 77 | _ => 3 end)
  (fun p => here_ l 4096 p + here_ [2; 0; 0; 2 ^ 63] 8192 p) None None None.
Lemma demo_sane : forall dx l, sane (demo dx l).
Proof.
  intros dx l. split.
  - intros []; cbn; try lia. apply Z.mod_pos_bound. lia.
  - intros p. cbn [mem demo]. unfold here_.
    destruct (Z.leb_spec 4096 p), (Z.ltb_spec p (4096 + 32)), (Z.leb_spec 8192 p), (Z.ltb_spec p (8192 + 32)); cbn [andb]; try lia;
      rewrite ?Z.add_0_l, ?Z.add_0_r; try apply Z.mod_pos_bound; lia.
Qed.
Definition result (p : list instr) (st : state) : option (list Z * Z * Z) :=
  match run p false st with
  | Some st' => Some (array (mem st') 12288 4, mem st' 12320, regs st' RAX)
  | None => None
  end.
Definition ones4 := [2 ^ 64 - 1; 2 ^ 64 - 1; 2 ^ 64 - 1; 2 ^ 63 - 1].

Example C98_add_full_flag_ex : result doc_add_full_flag (demo 8192 ones4) = Some ([1; 0; 0; 0], 1, 12288).
Proof. vm_compute. reflexivity. Qed.
Example C98_sadd_full_flag_ex : result doc_sadd_full_flag (demo 8192 ones4) = Some ([1; 0; 0; 0], 0, 12288).
Proof. vm_compute. reflexivity. Qed.
Example C98_ssub_full_flag_ex : result doc_ssub_full_flag (demo 8192 ones4) = Some ([2 ^ 64 - 3; 2 ^ 64 - 1; 2 ^ 64 - 1; 2 ^ 64 - 1], 1, 12288).
Proof. vm_compute. reflexivity. Qed.
Example C98_sub_limb_flag_ex : result doc_sub_limb_flag (demo 8 [7; 0; 0; 0]) = Some ([2 ^ 64 - 1; 2 ^ 64 - 1; 2 ^ 64 - 1; 2 ^ 64 - 1], 1, 12288).
Proof. vm_compute. reflexivity. Qed.
Example C98_sadd_ulimb_flag_ex : result doc_sadd_ulimb_flag (demo 1 ones4) = Some ([0; 0; 0; 2 ^ 63], 1, 12288).
Proof. vm_compute. reflexivity. Qed.
Example C98_ssub_ilimb_flag_ex : result doc_ssub_ilimb_flag (demo (-1) ones4) = Some ([0; 0; 0; 2 ^ 63], 1, 12288).
Proof. vm_compute. reflexivity. Qed.
(** The other listings, on operands that carry or borrow through every limb. *)
Example C98_others_ex :
  result doc_add_full (demo 8192 ones4) = Some ([1; 0; 0; 0], 0, 12288) /\
  result doc_add_limb (demo 2 ones4) = Some ([1; 0; 0; 2 ^ 63], 0, 12288) /\
  result doc_add_limb_flag (demo 2 ones4) = Some ([1; 0; 0; 2 ^ 63], 0, 12288) /\
  result doc_sadd_full (demo 8192 ones4) = Some ([1; 0; 0; 0], 0, 12288) /\
  result doc_sadd_ulimb (demo 2 ones4) = Some ([1; 0; 0; 2 ^ 63], 0, 12288) /\
  result doc_sub_full (demo 8192 [1; 0; 0; 0]) = Some ([2 ^ 64 - 1; 2 ^ 64 - 1; 2 ^ 64 - 1; 2 ^ 63 - 1], 0, 12288) /\
  result doc_sub_full_flag (demo 8192 [1; 0; 0; 0]) = Some ([2 ^ 64 - 1; 2 ^ 64 - 1; 2 ^ 64 - 1; 2 ^ 63 - 1], 1, 12288) /\
  result doc_sub_limb (demo 8 [7; 0; 0; 1]) = Some ([2 ^ 64 - 1; 2 ^ 64 - 1; 2 ^ 64 - 1; 0], 0, 12288) /\
  result doc_ssub_full (demo 8192 [1; 0; 0; 0]) = Some ([2 ^ 64 - 1; 2 ^ 64 - 1; 2 ^ 64 - 1; 2 ^ 63 - 1], 0, 12288) /\
  result doc_ssub_ulimb (demo 8 [7; 0; 0; 1]) = Some ([2 ^ 64 - 1; 2 ^ 64 - 1; 2 ^ 64 - 1; 0], 0, 12288) /\
  result doc_ssub_ulimb_flag (demo 8 [7; 0; 0; 2 ^ 63]) = Some ([2 ^ 64 - 1; 2 ^ 64 - 1; 2 ^ 64 - 1; 2 ^ 63 - 1], 1, 12288).
Proof. vm_compute. repeat split. Qed.
(** 10 plus -3: the listing is wrong in the second limb and the corrected one is right. *)
Example C98_sadd_ilimb_ex :
  result doc_sadd_ilimb (demo (-3) [10; 20; 30; 40]) = Some ([7; 21; 30; 39], 0, 12288) /\
  result fix_sadd_ilimb (demo (-3) [10; 20; 30; 40]) = Some ([7; 20; 30; 40], 0, 12288) /\
  @sadd_wrapping_ilimb (x86 true true) [10; 20; 30; 40] (-3) = Ok [7; 20; 30; 40].
Proof. vm_compute. auto. Qed.
(** The least number plus -1: the flag is right, the middle limbs are not. *)
Example C98_sadd_ilimb_flag_ex :
  result doc_sadd_ilimb_flag (demo (-1) [0; 0; 0; 2 ^ 63]) = Some ([2 ^ 64 - 1; 0; 0; 2 ^ 63 - 1], 1, 12288) /\
  result fix_sadd_ilimb_flag (demo (-1) [0; 0; 0; 2 ^ 63]) = Some ([2 ^ 64 - 1; 2 ^ 64 - 1; 2 ^ 64 - 1; 2 ^ 63 - 1], 1, 12288) /\
  @sadd_overflowing_ilimb (x86 true true) [0; 0; 0; 2 ^ 63] (-1) = Ok ([2 ^ 64 - 1; 2 ^ 64 - 1; 2 ^ 64 - 1; 2 ^ 63 - 1], true).
Proof. vm_compute. auto. Qed.
Example C98_ssub_ilimb_ex :
  result doc_ssub_ilimb (demo (-3) [10; 20; 30; 40]) = Some ([13; 19; 30; 41], 0, 12288) /\
  result fix_ssub_ilimb (demo (-3) [10; 20; 30; 40]) = Some ([13; 20; 30; 40], 0, 12288) /\
  @ssub_wrapping_ilimb (x86 true true) [10; 20; 30; 40] (-3) = Ok [13; 20; 30; 40].
Proof. vm_compute. auto. Qed.
Theorem C98_ilimb_refuted : exists st, sane st /\
  ~ gives doc_sadd_ilimb st (@sadd_wrapping_ilimb (x86 true true) (xs st) (yi st)) /\
  ~ gives_flag doc_sadd_ilimb_flag st (@sadd_overflowing_ilimb (x86 true true) (xs st) (yi st)) /\
  ~ gives doc_ssub_ilimb st (@ssub_wrapping_ilimb (x86 true true) (xs st) (yi st)).
Proof.
  exists (demo (-3) [10; 20; 30; 40]). pose proof (demo_sane (-3) [10; 20; 30; 40]) as S.
  assert (Y : yi (demo (-3) [10; 20; 30; 40]) = -3) by reflexivity.
  split; auto. rewrite C98_sadd_ilimb_exact, C98_sadd_ilimb_flag_exact, C98_ssub_ilimb_exact, Y by auto. lia.
Qed.
(** 0x1234_5678 rotated left by 20. *)
Definition turn (x n : Z) : state := St (fun r => match r with RDI => x | RSI => n | _ => 9 end) (fun _ => 0) None None None.
Example C98_rotate_ex :
  (match run doc_rotate16 false (turn 305419896 20) with Some st' => Some (regs st' RAX, regs st' RBX) | None => None end) = Some (1736516421, 9) /\
  @rotl_array (x86 true true) 16 [22136; 4660] 20 = Ok [1736516421 mod 2 ^ 16; 1736516421 / 2 ^ 16].
Proof. vm_compute. auto. Qed.

(** ** Assumptions (each must print "Closed under the global context") *)

Print Assumptions C98_rotate.
Print Assumptions C98_fix_sadd_ilimb.
Print Assumptions C98_fix_sadd_ilimb_flag.
Print Assumptions C98_fix_ssub_ilimb.
Print Assumptions C98_counts.
Print Assumptions C98_ilimb_refuted.
