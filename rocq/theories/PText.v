(** * Proofs that the source text says what the model says *)

Require Import ZArith List Bool String Lia.
From Verif Require Import Prim MText SrcText MRun MAdd.
Import ListNotations.
Local Open Scope string_scope.
Local Open Scope list_scope.
Local Open Scope Z_scope.

(** ** Limb widths

    The programs depend on the settings only through the limb width they select. *)
Definition is64 (limb32 p64 : bool) : bool := negb limb32 && p64.
Definition ww (s : bool) : Z := if s then 64 else 32.
Definition nm (s : bool) (n : string) : string := String.append n (if s then "64" else "32").

(** ** Symbolic execution *)

Lemma run_S : forall {c : Cfg} pw fuel d pr f gs args fd g en,
  find_fn pr f = Some fd ->
  match gs with [] => Some [] | _ => pairup (f_gen fd) gs end = Some g ->
  params (f_gen fd) (f_par fd) args g [] = Some en ->
  run pw fuel (S d) pr f gs args =
  let* o := exec_blk pw (wh pw (run pw fuel d pr) fuel) (run pw fuel d pr) (f_body fd) en in
  match o with
  | ONext _ v | ORet v => opt (coerce (f_ret fd) v)
  | OBrk _ => stuck
  end.
Proof.
  intros c pw fuel d pr f gs args fd g en H1 H2 H3. cbn [run]. rewrite H1. cbn [opt bind].
  destruct gs; [injection H2 as <-|rewrite H2]; cbn [opt bind]; rewrite H3; reflexivity.
Qed.

(** a literal array or number is given the type of the parameter *)
Lemma run_args : forall {c : Cfg} pw fuel d pr f gs args args' fd,
  find_fn pr f = Some fd ->
  (forall g, params (f_gen fd) (f_par fd) args g [] = params (f_gen fd) (f_par fd) args' g []) ->
  run pw fuel (S d) pr f gs args = run pw fuel (S d) pr f gs args'.
Proof.
  intros c pw fuel d pr f gs args args' fd H1 H2. cbn [run]. rewrite H1. cbn [opt bind].
  destruct gs; cbn [bind]; [now rewrite H2|]. destruct (pairup _ _); cbn [opt bind]; [now rewrite H2|reflexivity].
Qed.

Lemma exec_blk_last : forall {c : Cfg} pw w call s en, exec_blk pw w call (BCons s BNil) en = exec pw w call s en.
Proof.
  intros. transitivity (bind (exec pw w call s en) (fun o => match o with ONext _ _ => Ok o | _ => Ok o end));
    [reflexivity|]. destruct (exec pw w call s en) as [[| |]| |]; reflexivity. Qed.
Lemma exec_blk_cons : forall {c : Cfg} pw w call s s' r en,
  exec_blk pw w call (BCons s (BCons s' r)) en =
  match exec pw w call s en with
  | Ok (ONext en' _) => exec_blk pw w call (BCons s' r) en'
  | o => o
  end.
Proof.
  intros. transitivity (bind (exec pw w call s en) (fun o =>
    match o with ONext en' _ => exec_blk pw w call (BCons s' r) en' | _ => Ok o end)); [reflexivity|]. destruct (exec pw w call s en) as [[| |]| |]; reflexivity. Qed.

Lemma zeq_refl : forall x, zeq x x = true.
Proof. intro. apply Z.eqb_refl. Qed.

(** statements and expressions that contain blocks, the blocks being left for later *)
Lemma exec_if : forall {c : Cfg} pw w call e a b en,
  exec pw w call (SIf e a b) en =
  let* e := ev pw w call e en in
  match e with
  | VB b' =>
    let* o := (if b' then exec_blk pw w call a en else exec_blk pw w call b en) in
    Ok (match o with
        | ONext en' v => ONext (leave en en') v
        | OBrk en' => OBrk (leave en en')
        | ORet v => ORet v
        end)
  | _ => stuck
  end.
Proof. reflexivity. Qed.
Lemma exec_let_if : forall {c : Cfg} pw w call p t e a b en,
  exec pw w call (SLet p t (EIf e a b)) en =
  let* v :=
    (let* e := ev pw w call e en in
     match e with
     | VB b' =>
       let* o := (if b' then exec_blk pw w call a en else exec_blk pw w call b en) in
       match o with ONext _ v => Ok v | _ => stuck end
     | _ => stuck
     end) in
  let* v := (match t with Some t => opt (coerce t v) | None => Ok v end) in
  let* en := opt (bind_pat true p v en) in Ok (ONext en unit_).
Proof. reflexivity. Qed.
Lemma exec_exp_if : forall {c : Cfg} pw w call e a b en,
  exec pw w call (SExp (EIf e a b)) en =
  let* v :=
    (let* e := ev pw w call e en in
     match e with
     | VB b' =>
       let* o := (if b' then exec_blk pw w call a en else exec_blk pw w call b en) in
       match o with ONext _ v => Ok v | _ => stuck end
     | _ => stuck
     end) in
  Ok (ONext en v).
Proof. reflexivity. Qed.
Lemma exec_assign_blk : forall {c : Cfg} pw w call p b en,
  exec pw w call (SAssign p (EBlk b)) en =
  let* v := (let* o := exec_blk pw w call b en in match o with ONext _ v => Ok v | _ => stuck end) in
  let* en := opt (bind_pat false p v en) in Ok (ONext en unit_).
Proof. reflexivity. Qed.
Lemma exec_exp_blk : forall {c : Cfg} pw w call b en,
  exec pw w call (SExp (EBlk b)) en =
  let* v := (let* o := exec_blk pw w call b en in match o with ONext _ v => Ok v | _ => stuck end) in
  Ok (ONext en v).
Proof. reflexivity. Qed.

(** the text does what the model does, and then [Q] holds *)
Definition agree {A} (m : res A) (o : res out) (Q : A -> env -> Prop) : Prop :=
  match m with
  | Ok a => exists en v, o = Ok (ONext en v) /\ Q a en
  | Panic => o = Panic
  | OutOfFuel => o = OutOfFuel
  end.
Lemma agree_ok : forall {A} (a : A) en v (Q : A -> env -> Prop), Q a en -> agree (Ok a) (Ok (ONext en v)) Q.
Proof. intros. exists en, v. split; [reflexivity|assumption]. Qed.

(** the text yields the value that the model yields *)
Definition yields {A} (m : res A) (o : res out) (V : A -> val) : Prop :=
  match m with
  | Ok a => exists en, o = Ok (ONext en (V a))
  | Panic => o = Panic
  | OutOfFuel => o = OutOfFuel
  end.
Lemma yields_ok : forall {A} (a : A) en (V : A -> val), yields (Ok a) (Ok (ONext en (V a))) V.
Proof. intros. exists en. reflexivity. Qed.

(** A [while] loop whose state is described by [R] follows [for_range]. *)
Lemma wh_range : forall {c : Cfg} {A} (R : nat -> A -> env -> Prop) (pw : Z) call e b (f : nat -> A -> res A) (lo hi ex : nat),
  (forall k i st en, (lo <= i < hi)%nat -> (ex <= k)%nat -> R i st en ->
     ev pw (wh pw call k) call e en = Ok (VB true) /\
     agree (f i st) (exec_blk pw (wh pw call k) call b en) (fun st' en' => R (S i) st' (leave en en'))) ->
  (forall k st en, R (Nat.max lo hi) st en -> ev pw (wh pw call k) call e en = Ok (VB false)) ->
  forall k st en, R lo st en -> (hi - lo + ex < k)%nat ->
  agree (for_range lo hi f st) (wh pw call k e b en) (R (Nat.max lo hi)).
Proof.
  intros c A R pw call e b f lo hi ex Hb He k st en HR Hk.
  unfold for_range.
  assert (G : forall m i k st en, (i + m = Nat.max lo hi)%nat -> (lo <= i)%nat -> (m + ex < k)%nat -> R i st en ->
    agree (for_m m i f st) (wh pw call k e b en) (R (Nat.max lo hi))).
  { clear k st en HR Hk.
    induction m as [|m IH]; intros i k st en Hi Hl Hk HR; cbn [for_m].
    - destruct k as [|k]; [lia|]. exists en, unit_. split.
      + cbn [wh]. rewrite He with (st := st); [reflexivity|].
        replace (Nat.max lo hi) with i by lia. exact HR.
      + replace (Nat.max lo hi) with i by lia. exact HR.
    - destruct k as [|k]; [lia|].
      destruct (Hb k i st en ltac:(lia) ltac:(lia) HR) as [Hc Hs]. unfold agree in Hs.
      destruct (f i st) as [st'| |]; cbn [bind].
      + destruct Hs as (en' & v & Hs & HR').
        specialize (IH (S i) k st' _ ltac:(lia) ltac:(lia) ltac:(lia) HR').
        cbn [wh]. rewrite Hc. cbn [bind]. rewrite Hs. cbn [bind]. exact IH.
      + cbn [agree wh]. rewrite Hc. cbn [bind]. rewrite Hs. reflexivity.
      + cbn [agree wh]. rewrite Hc. cbn [bind]. rewrite Hs. reflexivity. }
  apply G; try lia. exact HR.
Qed.

(** The same for a loop that is left by [break]: the model goes on without
    doing anything, [stop] telling it so. *)
Definition agree2 {A} (stop : A -> bool) (m : res A) (o : res out) (R Q : A -> env -> Prop) : Prop :=
  match m with
  | Ok a => if stop a then exists en, o = Ok (OBrk en) /\ Q a en else exists en v, o = Ok (ONext en v) /\ R a en
  | Panic => o = Panic
  | OutOfFuel => o = OutOfFuel
  end.
Lemma agree2_next : forall {A} stop (a : A) en v (R Q : A -> env -> Prop),
  stop a = false -> R a en -> agree2 stop (Ok a) (Ok (ONext en v)) R Q.
Proof. intros. unfold agree2. rewrite H. exists en, v. split; [reflexivity|assumption]. Qed.
Lemma agree2_brk : forall {A} stop (a : A) en (R Q : A -> env -> Prop),
  stop a = true -> Q a en -> agree2 stop (Ok a) (Ok (OBrk en)) R Q.
Proof. intros. unfold agree2. rewrite H. exists en. split; [reflexivity|assumption]. Qed.
Lemma wh_range_brk : forall {c : Cfg} {A} (R : nat -> A -> env -> Prop) (Q : A -> env -> Prop) (stop : A -> bool)
    (pw : Z) (call : string -> list val -> list val -> res val) (e : expr) (b : blk) (f : nat -> A -> res A) (lo hi ex : nat),
  (forall i st, stop st = true -> f i st = Ok st) ->
  (forall k i st en, (lo <= i < hi)%nat -> (ex <= k)%nat -> R i st en -> stop st = false ->
     ev pw (wh pw call k) call e en = Ok (VB true) /\
     agree2 stop (f i st) (exec_blk pw (wh pw call k) call b en)
       (fun st' en' => R (S i) st' (leave en en')) (fun st' en' => Q st' (leave en en'))) ->
  (forall k st en, R (Nat.max lo hi) st en -> stop st = false ->
     ev pw (wh pw call k) call e en = Ok (VB false) /\ Q st en) ->
  forall k st en, R lo st en -> stop st = false -> (hi - lo + ex < k)%nat ->
  agree (for_range lo hi f st) (wh pw call k e b en) Q.
Proof.
  intros c A R Q stop pw call e b f lo hi ex Hs Hb He k st en HR Hst Hk.
  unfold for_range.
  assert (G0 : forall m i st, stop st = true -> for_m m i f st = Ok st).
  { induction m; intros; cbn [for_m]; [reflexivity|]. rewrite Hs by assumption. cbn [bind]. now apply IHm. }
  assert (G : forall m i k st en, (i + m = Nat.max lo hi)%nat -> (lo <= i)%nat -> (m + ex < k)%nat -> R i st en ->
    stop st = false -> agree (for_m m i f st) (wh pw call k e b en) Q).
  { clear k st en HR Hst Hk.
    induction m as [|m IH]; intros i k st en Hi Hl Hk HR Hst; cbn [for_m].
    - replace i with (Nat.max lo hi) in HR by lia.
      destruct k as [|k]; [lia|]. destruct (He k st en HR Hst) as [He1 He2]. exists en, unit_. split; [|exact He2].
      cbn [wh]. rewrite He1. reflexivity.
    - destruct k as [|k]; [lia|].
      destruct (Hb k i st en ltac:(lia) ltac:(lia) HR Hst) as [Hc Hf]. unfold agree2 in Hf.
      destruct (f i st) as [st'| |]; cbn [bind].
      + destruct (stop st') eqn:Es.
        * destruct Hf as (en' & Hf & HQ). rewrite G0 by assumption.
          exists (leave en en'), unit_. split; [|exact HQ].
          cbn [wh]. rewrite Hc. cbn [bind]. rewrite Hf. reflexivity.
        * destruct Hf as (en' & v & Hf & HR').
          specialize (IH (S i) k st' _ ltac:(lia) ltac:(lia) ltac:(lia) HR' Es).
          cbn [wh]. rewrite Hc. cbn [bind]. rewrite Hf. cbn [bind]. exact IH.
      + cbn [agree wh]. rewrite Hc. cbn [bind]. rewrite Hf. reflexivity.
      + cbn [agree wh]. rewrite Hc. cbn [bind]. rewrite Hf. reflexivity. }
  apply G; try lia; assumption.
Qed.

Ltac red_ev :=
  lazy beta iota zeta delta [ev evs exec exec_blk bind_pat assign retag look unify binop arith shift compare_
    unop cast assoc meth index set_index rep ints coerce blank params note_len pairup update leave elen opt stuck
    bind String.eqb Ascii.eqb Bool.eqb existsb skipn less app W dbg chk prims unit_ orb andb negb
    Z.eqb Pos.eqb Z.mul Pos.mul Pos.add Pos.succ ptz Z.add f_gen f_par f_ret f_body f_name ww fst snd].
(** reduce the text's side of the goal, the model's being left alone, and
    the statements that come later too *)
Ltac protected tac :=
  lazymatch goal with
  | |- context [@exec_blk ?cc ?p ?w ?cl ?b] =>
    let rest := fresh "rest" in
    set (rest := @exec_blk cc p w cl b); protected tac; subst rest
  | _ => tac ()
  end.
Ltac norm :=
  lazymatch goal with
  | |- agree ?m ?o ?Q =>
    let q := fresh "Q" in let mm := fresh "m" in
    set (q := Q) at 1; set (mm := m) at 1; protected ltac:(fun _ => red_ev); subst q mm
  | |- yields ?m ?o ?Q =>
    let q := fresh "Q" in let mm := fresh "m" in
    set (q := Q) at 1; set (mm := m) at 1; protected ltac:(fun _ => red_ev); subst q mm
  | |- agree2 ?s ?m ?o ?R ?Q =>
    let q := fresh "Q" in let r := fresh "R" in let mm := fresh "m" in let st := fresh "st" in
    set (q := Q) at 1; set (r := R) at 1; set (mm := m) at 1; set (st := s) at 1;
    protected ltac:(fun _ => red_ev); subst q r mm st
  | |- _ = ?R =>
    let r := fresh "rhs" in
    set (r := R) at 1; protected ltac:(fun _ => red_ev); subst r
  end.
(** run one statement *)
Ltac blocks cc p w cl s en :=
  lazymatch s with
  | SIf ?e ?a ?b => rewrite (@exec_if cc p w cl e a b en)
  | SLet ?q ?t (EIf ?e ?a ?b) => rewrite (@exec_let_if cc p w cl q t e a b en)
  | SExp (EIf ?e ?a ?b) => rewrite (@exec_exp_if cc p w cl e a b en)
  | SAssign ?q (EBlk ?b) => rewrite (@exec_assign_blk cc p w cl q b en)
  | SExp (EBlk ?b) => rewrite (@exec_exp_blk cc p w cl b en)
  | _ => idtac
  end.
Ltac one_stmt :=
  lazymatch goal with
  | |- context [@wh _ _ _ _ _ _ _] => fail
  | |- context [@exec_blk ?cc ?p ?w ?cl BNil ?en] =>
    change (@exec_blk cc p w cl BNil en) with (@Ok out (ONext en unit_)); norm
  | |- context [@exec_blk ?cc ?p ?w ?cl (BCons ?s BNil) ?en] =>
    rewrite (@exec_blk_last cc p w cl s en); blocks cc p w cl s en; norm
  | |- context [@exec_blk ?cc ?p ?w ?cl (BCons ?s (BCons ?s' ?r)) ?en] =>
    rewrite (@exec_blk_cons cc p w cl s s' r en); blocks cc p w cl s en; norm
  | _ => norm
  end.
(** enter a function *)
Ltac enter :=
  lazymatch goal with
  | |- @run ?cc ?p ?k (S ?d) ?pr ?f ?gs ?args = _ =>
    let fd := eval vm_compute in (find_fn pr f) in
    lazymatch fd with
    | Some ?fd =>
      eapply eq_trans;
      [ eapply (@run_S cc p k d pr f gs args fd);
        [ vm_compute; reflexivity
        | reflexivity
        | red_ev; repeat match goal with H : List.length _ = List.length _ |- _ => rewrite H end;
          rewrite ?zeq_refl; reflexivity ]
      | cbn [f_body f_ret] ]
    end
  end.
(** index arithmetic, done on natural numbers *)
Lemma pw_big : forall pw, 32 <= pw -> 2 ^ 32 <= 2 ^ pw.
Proof. intros. apply Z.pow_le_mono_r; lia. Qed.
Lemma uchk_nat : forall {c : Cfg} pw v, 32 <= pw -> 0 <= v < 2 ^ 32 -> uchk pw v = Ok v.
Proof.
  intros c pw v Hpw Hv. unfold uchk, in_u. pose proof (pw_big pw Hpw).
  replace ((0 <=? v) && (v <? 2 ^ pw)) with true; [reflexivity|].
  symmetry. apply andb_true_intro. split; [apply Z.leb_le|apply Z.ltb_lt]; lia.
Qed.
Lemma uadd_nn : forall {c : Cfg} pw i j, 32 <= pw -> Z.of_nat (i + j) < 2 ^ 32 ->
  uadd pw (Z.of_nat i) (Z.of_nat j) = Ok (Z.of_nat (i + j)).
Proof. intros. unfold uadd. rewrite uchk_nat by lia. f_equal. lia. Qed.
Lemma uadd_S : forall {c : Cfg} pw i, 32 <= pw -> Z.of_nat (S i) < 2 ^ 32 ->
  uadd pw (Z.of_nat i) 1 = Ok (Z.of_nat (S i)).
Proof. intros. unfold uadd. rewrite uchk_nat by lia. f_equal. lia. Qed.
Lemma uadd_01 : forall {c : Cfg} pw, 32 <= pw -> uadd pw 0 1 = Ok 1.
Proof. intros. unfold uadd. rewrite uchk_nat by lia. reflexivity. Qed.
Lemma usub_nn : forall {c : Cfg} pw i j, 32 <= pw -> (j <= i)%nat -> Z.of_nat i < 2 ^ 32 ->
  usub pw (Z.of_nat i) (Z.of_nat j) = Ok (Z.of_nat (i - j)).
Proof. intros. unfold usub. rewrite uchk_nat by lia. f_equal. lia. Qed.
Lemma usub_1 : forall {c : Cfg} pw i, 32 <= pw -> (1 <= i)%nat -> Z.of_nat i < 2 ^ 32 ->
  usub pw (Z.of_nat i) 1 = Ok (Z.of_nat (i - 1)).
Proof. intros. unfold usub. rewrite uchk_nat by lia. f_equal. lia. Qed.
Lemma ltb_nn : forall i j, (Z.of_nat i <? Z.of_nat j) = (i <? j)%nat.
Proof. intros. destruct (Nat.ltb_spec i j); [apply Z.ltb_lt|apply Z.ltb_ge]; lia. Qed.
Lemma leb_2n : forall j, (2 <=? Z.of_nat j) = (2 <=? j)%nat.
Proof. intros. destruct (Nat.leb_spec 2 j); [apply Z.leb_le|apply Z.leb_gt]; lia. Qed.
Lemma ltb_1n : forall j, (1 <? Z.of_nat j) = (1 <? j)%nat.
Proof. intros. destruct (Nat.ltb_spec 1 j); [apply Z.ltb_lt|apply Z.ltb_ge]; lia. Qed.
Lemma leb_nn : forall i j, (Z.of_nat i <=? Z.of_nat j) = (i <=? j)%nat.
Proof. intros. destruct (Nat.leb_spec i j); [apply Z.leb_le|apply Z.leb_gt]; lia. Qed.

Lemma set_len : forall {A} (l l' : list A) i v, set l i v = Ok l' -> List.length l' = List.length l.
Proof.
  intros A l l' i v. unfold set. destruct (_ <? _)%nat; [|discriminate].
  intros [= <-]. revert i. induction l as [|a l IH]; intros [|i]; cbn [upd List.length]; auto.
Qed.

Ltac binds :=
  repeat match goal with
  | |- context [bind (Ok ?a) ?f] => change (bind (Ok a) f) with (f a); cbv beta iota
  | |- context [bind Panic ?f] => change (bind Panic f) with (@Panic _); cbv beta iota
  | |- context [bind OutOfFuel ?f] => change (bind OutOfFuel f) with (@OutOfFuel _); cbv beta iota
  end.
Ltac nats :=
  repeat match goal with
  | |- context [@W (Build_Cfg ?w ?n ?a ?b)] => change (@W (Build_Cfg w n a b)) with w
  | |- context [@chk (Build_Cfg ?w ?n ?a ?b)] => change (@chk (Build_Cfg w n a b)) with a
  | |- context [@dbg (Build_Cfg ?w ?n ?a ?b)] => change (@dbg (Build_Cfg w n a b)) with b
  | |- context [Z.mul 2 64] => change (Z.mul 2 64) with 128
  | |- context [Z.mul 2 32] => change (Z.mul 2 32) with 64
  | |- context [ww true] => change (ww true) with 64
  | |- context [ww false] => change (ww false) with 32
  | |- context [zeq (Zpos ?p) (Zpos ?p)] => change (zeq (Zpos p) (Zpos p)) with true
  | |- context [assert_ true] => change (assert_ true) with (@Ok unit tt)
  | |- context [Z.to_nat (Z.of_nat ?i)] => rewrite (Nat2Z.id i)
  | |- context [Z.of_nat _ <? Z.of_nat _] => rewrite ltb_nn
  | |- context [1 <? Z.of_nat _] => rewrite ltb_1n
  | |- context [Nat.max ?a ?b] => rewrite (Nat.max_r a b) by lia
  | |- context [2 <=? Z.of_nat _] => rewrite leb_2n
  | |- context [Z.of_nat _ <=? Z.of_nat _] => rewrite leb_nn
  | |- context [Z.to_nat 0] => change (Z.to_nat 0) with 0%nat
  | |- context [Z.to_nat 1] => change (Z.to_nat 1) with 1%nat
  | |- context [Z.to_nat 2] => change (Z.to_nat 2) with 2%nat
  | |- context [uadd _ (Z.of_nat ?i) 1] => rewrite (uadd_S _ i) by lia
  | |- context [usub _ (Z.of_nat ?i) 1] => rewrite (usub_1 _ i) by lia
  | |- context [uadd _ (Z.of_nat ?i) (Z.of_nat ?j)] => rewrite (uadd_nn _ i j) by lia
  | |- context [usub _ (Z.of_nat ?i) (Z.of_nat ?j)] => rewrite (usub_nn _ i j) by lia
  | |- context [uadd _ 0 1] => rewrite uadd_01 by lia
  | |- context [bind (Ok ?a) ?f] => change (bind (Ok a) f) with (f a); cbv beta iota
  end.
(** the next operation of the model, which the text has too *)
Ltac head_of t := lazymatch t with bind ?m _ => head_of m | ?m => constr:(m) end.
Ltac model_head := lazymatch goal with |- agree ?t _ _ => head_of t | |- agree2 _ ?t _ _ _ => head_of t
  | |- yields ?t _ _ => head_of t | |- _ = ?t => head_of t end.
Ltac split3 m := destruct m as [?g| |] eqn:?; [binds | binds; try reflexivity ..].
Ltac common :=
  let m := model_head in
  lazymatch m with
  | get _ _ => split3 m
  | set _ _ _ => split3 m
  | ushr _ _ _ => split3 m
  | ushl _ _ _ => split3 m
  | sshr _ _ _ => split3 m
  | umul _ _ _ => split3 m
  | uadd _ _ _ => split3 m
  end.
Ltac facts :=
  repeat match goal with
  | H : (_ <=? _)%nat = true |- _ => apply Nat.leb_le in H
  | H : (_ <? _)%nat = true |- _ => apply Nat.ltb_lt in H
  | H : (_ && _)%bool = true |- _ => apply andb_prop in H; destruct H
  end.
Ltac assertion :=
  match goal with
  | |- context [bind (assert_ (?a && ?b)) _] => destruct a eqn:?; cbv beta iota delta [andb]; facts; nats
  | |- context [bind (assert_ false) _] => cbv beta iota delta [bind assert_]; reflexivity
  | |- context [bind (assert_ ?b) _] =>
    destruct b eqn:?; unfold assert_; cbv beta iota; binds; [ nats; facts | try reflexivity ]
  end.
Ltac pairs :=
  match goal with
  | |- context [p_overflowing_add ?a ?b ?d] => destruct (p_overflowing_add a b d) as [?v ?cy]
  | |- context [p_overflowing_sub ?a ?b ?d] => destruct (p_overflowing_sub a b d) as [?v ?cy]
  | |- context [p_soverflowing_add ?a ?b ?d] => destruct (p_soverflowing_add a b d) as [?v ?cy]
  | |- context [p_soverflowing_sub ?a ?b ?d] => destruct (p_soverflowing_sub a b d) as [?v ?cy]
  | |- context [carrying_add ?a ?b ?d] => destruct (carrying_add a b d) as [?v ?cy]
  | |- context [borrowing_sub ?a ?b ?d] => destruct (borrowing_sub a b d) as [?v ?cy]
  | |- context [mac ?a ?b ?d ?k] => destruct (mac a b d k) as [[?v ?cy]| |] eqn:?; [binds | binds; try reflexivity ..]
  end; cbv beta iota.
Lemma get_dig : forall w (l : list Z) i v, Forall (fun x => 0 <= x < 2 ^ w) l -> get l i = Ok v -> 0 <= v < 2 ^ w.
Proof.
  intros w l i v Hl. unfold get. destruct (nth_error l i) eqn:E; [|discriminate]. intros [= <-].
  rewrite Forall_forall in Hl. apply Hl. eapply nth_error_In, E.
Qed.
Lemma set_dig : forall w (l l' : list Z) i v, Forall (fun x => 0 <= x < 2 ^ w) l -> 0 <= v < 2 ^ w ->
  set l i v = Ok l' -> Forall (fun x => 0 <= x < 2 ^ w) l'.
Proof.
  intros w l l' i v Hl Hv. unfold set. destruct (_ <? _)%nat; [|discriminate]. intros [= <-].
  revert i. induction Hl as [|a l Ha Hl IH]; intros [|i]; cbn [upd]; auto.
Qed.
Lemma ucast_dig : forall w v, 0 <= w -> 0 <= ucast w v < 2 ^ w.
Proof. intros. apply Z.mod_pos_bound. apply Z.pow_pos_nonneg; lia. Qed.
Lemma wsub_dig : forall w x y, 0 <= w -> 0 <= p_wrapping_sub w x y < 2 ^ w.
Proof. intros. now apply ucast_dig. Qed.
Lemma rep_dig : forall w n v, 0 <= v < 2 ^ w -> Forall (fun x => 0 <= x < 2 ^ w) (repeat v n).
Proof. intros. apply Forall_forall. intros z Hz. now apply repeat_spec in Hz as ->. Qed.
Ltac dig :=
  first
  [ assumption
  | eapply get_dig; [|eassumption]; assumption
  | apply ucast_dig; lia
  | apply wsub_dig; lia
  | split; [apply Z.leb_le|apply Z.ltb_lt]; reflexivity
  | apply Forall_cons; [dig|apply Forall_nil]
  | apply rep_dig; dig
  | eapply set_dig; [| |eassumption]; dig ].
(** a condition that the text and the model both have *)
Ltac branch :=
  lazymatch goal with |- context [@wh _ _ _ _ _ _ _] => fail | _ => idtac end;
  match goal with
  | |- context [(?a <? ?b)%nat] => destruct (Nat.ltb_spec a b); try (exfalso; lia); cbv beta iota delta [andb]
  | |- context [zeq ?a ?b] =>
    change (zeq a b) with (a =? b); destruct (a =? b) eqn:?; cbv beta iota delta [andb negb]
  | |- context [if ?b then _ else _] =>
    lazymatch type of b with bool => destruct b eqn:?; cbv beta iota delta [andb negb xorb orb] end
  end.
Ltac side := first [ dig |
  repeat match goal with H : set _ _ _ = Ok _ |- _ => apply set_len in H end;
  rewrite ?repeat_length in *; cbn [List.length] in *; lia ].
(** calls of functions already dealt with *)
Ltac typed_args :=
  match goal with
  | |- context [@run ?cc ?p ?k (S ?d) ?pr ?f ?gs ?args] =>
    let h := fresh "args" in
    match args with
    | context h [VA IL ?l] =>
      let fd := eval vm_compute in (find_fn pr f) in
      lazymatch fd with
      | Some ?fd =>
        first
        [ let a := context h [VA (IU 64) l] in
          rewrite (@run_args cc p k d pr f gs args a fd ltac:(vm_compute; reflexivity) ltac:(intro; red_ev; reflexivity))
        | let a := context h [VA (IU 32) l] in
          rewrite (@run_args cc p k d pr f gs args a fd ltac:(vm_compute; reflexivity) ltac:(intro; red_ev; reflexivity)) ]
      end
    end
  end.
Ltac calls :=
  repeat typed_args;
  match goal with
  | H : context [run] |- _ => rewrite H by side
  end.
Ltac digits_ Hd :=
  repeat match goal with H : mac _ _ _ _ = Ok _ |- _ => apply Hd in H; destruct H end;
  first [ eapply set_dig; [| |eassumption]; dig | dig ].
Ltac step := first [ progress one_stmt; nats | common; nats | assertion | calls; nats | pairs; nats | branch; nats ].
Ltac sx := nats; repeat step.
Ltac truth :=
  f_equal; f_equal;
  first [ apply Nat.ltb_lt; lia | apply Nat.ltb_ge; lia | reflexivity ].
(** the loop in the text is the loop in the model, with [R] between them *)
Ltac loop_in L M R ex :=
  match L with context [@wh ?cc ?pw ?call ?k ?e ?b ?en] =>
    match M with context [for_range ?lo ?hi ?F ?st] =>
      let H := fresh "Hloop" in
      assert (H : agree (for_range lo hi F st) (@wh cc pw call k e b en) (R (Nat.max lo hi)));
      [ apply (@wh_range cc _ R pw call e b F lo hi ex)
      | unfold agree in H; revert H ]
    end
  end.
Ltac brk_loop stop R Q ex :=
  match goal with |- agree ?M ?L _ =>
    match L with context [@wh ?cc ?pw ?call ?k ?e ?b ?en] =>
      match M with context [for_range ?lo ?hi ?F ?st] =>
        let H := fresh "Hloop" in
        assert (H : agree (for_range lo hi F st) (@wh cc pw call k e b en) Q);
        [ apply (@wh_range_brk cc _ R Q stop pw call e b F lo hi ex)
        | unfold agree in H; revert H ]
      end
    end
  end.
Ltac the_loop R ex :=
  lazymatch goal with
  | |- agree ?M ?L _ => loop_in L M R ex
  | |- yields ?M ?L _ => loop_in L M R ex
  | |- ?L = ?M => loop_in L M R ex
  end.

(** split on the limb width, and make it a number *)
Ltac widths s HW :=
  match type of HW with
  | @W ?c = _ => destruct c as [?w ?n ?ck ?db]; destruct s; cbn in HW; subst
  end;
  repeat match goal with H : context [nm _ _] |- _ => lazy beta iota delta [nm ww String.append] in H end;
  change (ww true) with 64 in *; change (ww false) with 32 in *.
(** after the loop *)
Ltac done_loop tac :=
  let H := fresh "Hloop" in intro H;
  match goal with
  | |- context [for_range ?lo ?hi ?F ?st] =>
    let st' := fresh "st" in let HR := fresh "HR" in
    destruct (for_range lo hi F st) as [st'| |];
    [ destruct H as (?en & ?v & H & HR); rewrite H; clear H; cbv beta iota; rewrite ?Nat.max_r in HR by lia; tac st' HR
    | rewrite H; reflexivity .. ]
  end.

(** The values of the text *)
Definition v_arr (w : Z) (r : res (list Z)) : res val := let* l := r in Ok (VA (IU w) l).
Definition v_arrb (w : Z) (r : res (list Z * bool)) : res val :=
  let* (l, b) := r in Ok (VT [VA (IU w) l; VB b]).
