(** * C60-C67: functions, closures, objects, prototypes, [this], [new] *)
Require Import ZArith List Bool Lia.
Import ListNotations.
Require Import Verif.FnModel Verif.FnSpec Verif.FnSpec2 Verif.FnSpec3 Verif.FnProofs Verif.FnProofs2 Verif.FnProofs3 Verif.FnProofs4 Verif.FnProofs5 Verif.FnProofs6 Verif.FnProofs7 Verif.FnProofs8 Verif.FnProofs9 Verif.FnProofs10 Verif.FnProofs11 Verif.FnProofs12 Verif.FnProofs13.
Local Open Scope nat_scope.

Section Props.
Context {PS : psys}.
Notation V := (value (prim PS)).
Notation vundef := (VPrim (undef PS)).
Notation mem := (@mem PS).
Notation stmt := (@stmt PS).

(** The program stays within what the specification covers: no arrow function is called as a method or
    with [new]. *)
Definition specified (p : stmt) : Prop := forall n, program true n p <> Unk.

(** C60.  Compiled and run, a program ends with a value, ends with an error, or does not end, exactly
    when the specification says so, and leaves the same memory. *)
Theorem program_value (p : stmt) v (m : mem) : specified p ->
  ((exists n th, run_program n p = Done v m th) <-> (exists n, program true n p = Ok v m)).
Proof.
  intros Hs. split.
  - intros (n & th & H). exists n. pose proof (sim_program n p) as S. specialize (Hs n).
    destruct (program true n p) as [v' m'|m'| |] eqn:E; try congruence.
    + destruct S as (th' & k & S). rewrite run_program_start in H.
      assert (D : rn n (start p) = rn k (start p)) by (apply rn_det; congruence). congruence.
    + destruct S as (k & S). rewrite run_program_start in H.
      assert (D : rn n (start p) = rn k (start p)) by (apply rn_det; congruence). congruence.
    + rewrite run_program_start, S in H by lia. discriminate.
  - intros (n & H). pose proof (sim_program n p) as S. rewrite H in S. destruct S as (th & k & S).
    exists k, th. exact S.
Qed.
Theorem program_error (p : stmt) (m : mem) : specified p ->
  ((exists n, run_program n p = Fail m) <-> (exists n, program true n p = Err m)).
Proof.
  intros Hs. split.
  - intros (n & H). exists n. pose proof (sim_program n p) as S. specialize (Hs n).
    destruct (program true n p) as [v' m'|m'| |] eqn:E; try congruence.
    + destruct S as (th' & k & S). rewrite run_program_start in H.
      assert (D : rn n (start p) = rn k (start p)) by (apply rn_det; congruence). congruence.
    + destruct S as (k & S). rewrite run_program_start in H.
      assert (D : rn n (start p) = rn k (start p)) by (apply rn_det; congruence). congruence.
    + rewrite run_program_start, S in H by lia. discriminate.
  - intros (n & H). pose proof (sim_program n p) as S. rewrite H in S. destruct S as (k & S).
    exists k. exact S.
Qed.
Theorem program_forever (p : stmt) : specified p ->
  ((forall n, run_program n p = NoFuel) <-> (forall n, program true n p = Out)).
Proof.
  intros Hs. split; intros H n.
  - pose proof (sim_program n p) as S. specialize (Hs n).
    destruct (program true n p) as [v' m'|m'| |] eqn:E; try congruence.
    + destruct S as (th' & k & S). specialize (H k). rewrite run_program_start in H. congruence.
    + destruct S as (k & S). specialize (H k). rewrite run_program_start in H. congruence.
  - pose proof (sim_program n p) as S. rewrite H in S. apply S. lia.
Qed.
(** ... and the interpreter never pops an empty stack, never jumps out of the code. *)
Theorem program_never_stuck (p : stmt) n : specified p -> run_program n p <> Open.
Proof.
  intros Hs H. pose proof (sim_program n p) as S. specialize (Hs n).
  destruct (program true n p) as [v' m'|m'| |] eqn:E; try congruence.
  - destruct S as (th' & k & S). rewrite run_program_start in H.
    assert (D : rn n (start p) = rn k (start p)) by (apply rn_det; congruence). congruence.
  - destruct S as (k & S). rewrite run_program_start in H.
    assert (D : rn n (start p) = rn k (start p)) by (apply rn_det; congruence). congruence.
  - rewrite run_program_start, S in H by lia. discriminate.
Qed.

(** C63.  A program without arrow functions is within the specification whatever it does. *)
Theorem no_arrows_specified (p : stmt) : no_arrows p = true -> specified p.
Proof. intros H n. now apply no_arrows_never_unk. Qed.
Theorem no_arrows_never_stuck (p : stmt) n : no_arrows p = true -> run_program n p <> Open.
Proof. intros H. now apply program_never_stuck, no_arrows_specified. Qed.

(** C61.  If no operand is a variable that a later operand of the same operator, call or assignment can
    change, then the program evaluates its operands in the order of JavaScript. *)
Theorem javascript_order_value (p : stmt) v (m : mem) : in_order fun_locals p = true -> no_arrows p = true ->
  ((exists n th, run_program n p = Done v m th) <-> (exists n, program false n p = Ok v m)).
Proof.
  intros Ho Ha. rewrite program_value by now apply no_arrows_specified.
  split; intros (n & H); exists n; rewrite <- H; [|symmetry]; now apply in_order_same.
Qed.
Theorem javascript_order_error (p : stmt) (m : mem) : in_order fun_locals p = true -> no_arrows p = true ->
  ((exists n, run_program n p = Fail m) <-> (exists n, program false n p = Err m)).
Proof.
  intros Ho Ha. rewrite program_error by now apply no_arrows_specified.
  split; intros (n & H); exists n; rewrite <- H; [|symmetry]; now apply in_order_same.
Qed.
Theorem javascript_order_forever (p : stmt) : in_order fun_locals p = true -> no_arrows p = true ->
  ((forall n, run_program n p = NoFuel) <-> (forall n, program false n p = Out)).
Proof.
  intros Ho Ha. rewrite program_forever by now apply no_arrows_specified.
  split; intros H n; rewrite <- (H n); [|symmetry]; now apply in_order_same.
Qed.

(** C64.  With a limit on the depth of calls, a program without loops ends, however its functions call
    each other. *)
Theorem bounded_calls_end (p : stmt) k : no_arrows p = true -> no_loops p = true -> max_depth PS = Some (S k) ->
  exists N, (exists v m th, run_program N p = Done v m th) \/ (exists m, run_program N p = Fail m).
Proof.
  intros Ha Hl Hk. pose proof (no_loops_end true p k (S (S k)) Hl Hk ltac:(lia)) as H1.
  pose proof (no_arrows_never_unk true (S (S k)) p Ha) as H2.
  pose proof (sim_program (S (S k)) p) as S.
  destruct (program true (Datatypes.S (Datatypes.S k)) p) as [v m|m| |]; try congruence.
  - destruct S as (th & j & S). exists j. left. eauto.
  - destruct S as (j & S). exists j. right. eauto.
Qed.

Section Reached.
Hypothesis NF : no_forging PS.

(** C62.  A variable of a call (the call's scope [a] is visible to some function) that neither the functions
    made there nor the functions inside them assign keeps its value, whatever scripts come later. *)
Theorem private_variable (m m' : mem) th th' qs b f sc a x :
  reached m th -> forallb no_arrows qs = true -> scripts qs m th m' th' ->
  fn (getobj m b) = Some (f, sc) -> In a sc -> a <> glob ->
  (forall g, sees m a g -> never_assigns g x) ->
  variable m' a x = variable m a x.
Proof. now apply private_kept. Qed.
(** ... and no script ever adds a variable to the scope of a call. *)
Theorem no_new_variables (m m' : mem) th th' qs b f sc a x :
  reached m th -> forallb no_arrows qs = true -> scripts qs m th m' th' ->
  fn (getobj m b) = Some (f, sc) -> In a sc -> a <> glob ->
  own m' a x = own m a x.
Proof.
  intros HR Hq HS Hf Ha Hg. destruct (reached_more NF m th qs m' th' HR Hq HS) as (FS & FC & FP & FI & HO & HO' & E).
  rewrite !own_own_cell. apply (ev_act _ _ E). exact (visible_scope m b f sc a (ok_sane _ _ _ HO) Hf Ha Hg).
Qed.

(** C65.  Prototype chains end: no object inherits from itself, so a lookup of a property gives the same
    answer however many links it may follow beyond the number of objects. *)
Theorem prototypes_acyclic (m : mem) th a : reached m th -> ~ inherits m a a.
Proof.
  intros HR H. destruct (reached_ok NF m th HR) as [FS HO].
  pose proof (inherits_rank m a a (ok_sane _ _ _ HO) H). lia.
Qed.
Theorem lookup_ends (m : mem) th a k n : reached m th -> length (objs m) <= n -> lookup n m a k = get_prop m a k.
Proof. intros HR. destruct (reached_ok NF m th HR) as [FS HO]. apply lookup_enough, HO. Qed.
(** [instanceof] is: the property "prototype" of the function is an object from which the value inherits. *)
Theorem instanceof_inherits (m : mem) th a b : reached m th ->
  (instance_of m (VObj a) (VObj b) = true <->
   exists f sc p, fn (getobj m b) = Some (f, sc) /\ variable m b prototype = Some (VObj p) /\ inherits m a p).
Proof. intros HR. destruct (reached_ok NF m th HR) as [FS HO]. apply inst_spec, HO. Qed.
(** Every function has such a property. *)
Theorem functions_have_prototypes (m : mem) th b f sc : reached m th -> fn (getobj m b) = Some (f, sc) ->
  exists p, variable m b prototype = Some (VObj p) /\ p < length (objs m).
Proof.
  intros HR H. destruct (reached_ok NF m th HR) as [FS HO]. pose proof (ok_sane _ _ _ HO) as SN. apply fn_at in H.
  destruct (sn_fun _ SN _ _ _ H) as (_ & _ & _ & c & p & Hc & Hp). exists p. unfold variable. rewrite own_own_cell, Hc. cbn [option_map].
  rewrite <- readc_cell. unfold readc. rewrite Hp. split; [reflexivity|]. apply user_lt. exact (sn_val _ SN _ _ Hp).
Qed.
(** Scripts change neither what an object inherits from, nor what a function's "prototype" is, nor,
    therefore, any answer of [instanceof]. *)
Theorem prototype_fixed (m m' : mem) th th' qs a :
  reached m th -> forallb no_arrows qs = true -> scripts qs m th m' th' -> a < length (objs m) ->
  proto (getobj m' a) = proto (getobj m a).
Proof.
  intros HR Hq HS Ha. destruct (reached_more NF m th qs m' th' HR Hq HS) as (FS & FC & FP & FI & HO & HO' & E).
  apply proto_old; [apply E|exact Ha].
Qed.
Theorem function_fixed (m m' : mem) th th' qs b f sc :
  reached m th -> forallb no_arrows qs = true -> scripts qs m th m' th' -> fn (getobj m b) = Some (f, sc) ->
  fn (getobj m' b) = Some (f, sc) /\ variable m' b prototype = variable m b prototype.
Proof.
  intros HR Hq HS Hf. destruct (reached_more NF m th qs m' th' HR Hq HS) as (FS & FC & FP & FI & HO & HO' & E).
  apply proto_var_kept; [apply HO|exact E|exact Hf].
Qed.
Theorem instanceof_fixed (m m' : mem) th th' qs a b f sc :
  reached m th -> forallb no_arrows qs = true -> scripts qs m th m' th' ->
  a < length (objs m) -> fn (getobj m b) = Some (f, sc) ->
  instance_of m' (VObj a) (VObj b) = instance_of m (VObj a) (VObj b).
Proof.
  intros HR Hq HS Ha Hf. destruct (reached_more NF m th qs m' th' HR Hq HS) as (FS & FC & FP & FI & HO & HO' & E).
  apply instance_kept with f sc; [apply HO|apply HO'|exact E|exact Ha|exact Hf].
Qed.

(** Object.setPrototypeOf, which those scripts do not call, is another matter: it keeps chains finite
    if the new prototype does not inherit from the object; but it does not check, and if it does, a cycle arises. *)
Theorem set_prototype_acyclic (m m' : mem) x y : (forall a, ~ inherits m a a) -> ~ inherits m y x ->
  set_prototype_of m (VObj x) (VObj y) = Some m' -> forall a, ~ inherits m' a a.
Proof.
  intros HA Hyx H. unfold set_prototype_of in H. injection H as H.
  match type of H with mkmem _ (upd _ _ (mkobj _ ?z _)) = _ => set (q := z) in H end.
  assert (HP : forall a, proto (getobj m' a) = proto (getobj m a) \/ (a = x /\ proto (getobj m' a) = q)).
  { intros a. subst m'. unfold getobj. cbn [objs]. rewrite nth_upd.
    destruct (Nat.eqb_spec a x) as [->|]; cbn [andb]; [|now left].
    destruct (x <? length (objs m)); [right; auto|now left]. }
  assert (HQ : forall z, q = Some z -> z <> x /\ ~ inherits m z x).
  { unfold q. intros z. destruct (Nat.eqb_spec y x) as [->|Hn].
    - rewrite andb_false_r. intros Hz. split.
      + intros ->. apply (HA x). now apply inh_one.
      + intros Hi. apply (HA x). now apply inh_more with z.
    - destruct (negb _ && negb false).
      + intros Hz. injection Hz as <-. auto.
      + intros Hz. split.
        * intros ->. apply Hyx. now apply inh_one.
        * intros Hi. apply Hyx. now apply inh_more with z. }
  assert (K : forall a b, inherits m' a b -> inherits m a b \/
            exists z, q = Some z /\ (a = x \/ inherits m a x) /\ (z = b \/ inherits m z b)).
  { induction 1 as [a p Hp|a p b Hp _ IH].
    - destruct (HP a) as [E|[-> E]]; rewrite E in Hp; [left; now apply inh_one|]. right. exists p. auto.
    - destruct (HP a) as [E|[-> E]]; rewrite E in Hp.
      + destruct IH as [IH|(z & Hz & H1 & H2)]; [left; now apply inh_more with p|]. right. exists z. split; [exact Hz|]. split; [|exact H2].
        right. destruct H1 as [->|H1]; [now apply inh_one|now apply inh_more with p].
      + right. destruct IH as [IH|(z & Hz & H1 & H2)]; [exists p; auto|exists z; auto]. }
  assert (TR : forall a b c, inherits m a b -> inherits m b c -> inherits m a c).
  { intros a b c H1 H2. induction H1; [now apply inh_more with p|apply inh_more with p; auto]. }
  intros a Ha. destruct (K a a Ha) as [Hm|(z & Hz & H1 & H2)]; [exact (HA a Hm)|].
  destruct (HQ z Hz) as [N1 N2].
  destruct H1 as [->|H1], H2 as [->|H2]; auto. apply N2. now apply TR with a.
Qed.
Theorem set_prototype_cycle_refuted (m m' : mem) x y : x < length (objs m) -> y <> x -> props (getobj m y) <> [] ->
  inherits m y x -> set_prototype_of m (VObj x) (VObj y) = Some m' -> inherits m' x x.
Proof.
  intros Hx Hn Hy Hi H. unfold set_prototype_of in H. injection H as H.
  assert (E : negb (length (props (getobj m y)) =? 0) && negb (y =? x) = true).
  { apply andb_true_iff. split; apply negb_true_iff, Nat.eqb_neq; [|exact Hn]. destruct (props (getobj m y)); [congruence|discriminate]. }
  rewrite E in H.
  assert (HX : proto (getobj m' x) = Some y).
  { subst m'. unfold getobj. cbn [objs]. rewrite nth_upd, Nat.eqb_refl. apply Nat.ltb_lt in Hx. rewrite Hx. reflexivity. }
  assert (HP : forall a, a <> x -> proto (getobj m' a) = proto (getobj m a)).
  { intros a Ha. subst m'. unfold getobj. cbn [objs]. rewrite nth_upd. destruct (Nat.eqb_spec a x); [congruence|reflexivity]. }
  assert (K : forall a b, inherits m a b -> b = x -> a = x \/ inherits m' a x).
  { induction 1 as [a p Hp|a p b Hp _ IH]; intros ->.
    - destruct (Nat.eq_dec a x) as [|Ha]; [now left|]. right. apply inh_one. now rewrite HP.
    - destruct (Nat.eq_dec a x) as [|Ha]; [now left|]. right. destruct (IH eq_refl) as [->|H1]; [apply inh_one|apply inh_more with p]; auto; now rewrite HP. }
  destruct (K y x Hi eq_refl) as [|K1]; [congruence|]. now apply inh_more with y.
Qed.

(** C66.  [new] gives an object; and if the function returns no value, a new object that is an instance
    of it. *)
Theorem new_gives_object n e es (m : mem) th v m' th' : reached m th -> no_arrows (SReturn (ENew e es)) = true ->
  run_more n (SReturn (ENew e es)) th m = Done v m' th' -> exists a, v = VObj a /\ a < length (objs m').
Proof. now apply new_object. Qed.
Theorem new_gives_instance n x es (m : mem) th v m' th' b f sc : reached m th ->
  no_arrows (SReturn (ENew (EVar x) es)) = true ->
  variable m glob x = Some (VObj b) -> fn (getobj m b) = Some (f, sc) -> plain_returns (body f) = true ->
  calls_es es = false -> ~ In x (asg_es es) ->
  run_more n (SReturn (ENew (EVar x) es)) th m = Done v m' th' ->
  exists a, v = VObj a /\ length (objs m) <= a < length (objs m') /\ instance_of m' v (VObj b) = true.
Proof. now apply new_instance. Qed.

(** C67.  A variable or property never holds a reference to an object that does not exist, nor to the scope
    of a call. *)
Theorem references_valid (m : mem) th c a : reached m th -> cell m c = VObj a ->
  a < length (objs m) /\ forall b f sc, fn (getobj m b) = Some (f, sc) -> In a sc -> a = glob.
Proof. intros HR. destruct (reached_ok NF m th HR) as [FS HO]. apply values_exist, HO. Qed.
End Reached.
End Props.
