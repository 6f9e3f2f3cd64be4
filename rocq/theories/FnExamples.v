(** * Functions: examples that meet the hypotheses of FnProps.v, and programs on which jsish departs from
    JavaScript *)
Require Import ZArith List Bool Lia.
Import ListNotations.
Require Import Verif.FnModel Verif.FnSpec Verif.FnSpec2 Verif.FnSpec3 Verif.FnProps.
Local Open Scope nat_scope.

(** A small system of primitive values: undefined, booleans, whole numbers. *)
Inductive dprim := DU | DB (b : bool) | DN (z : Z).
Inductive dbop := OAdd | OSub | OMul | OLess.
Definition dbin (o : dbop) (a b : value dprim) : option (value dprim) :=
  match a, b with
  | VPrim (DN x), VPrim (DN y) =>
      Some (VPrim match o with OAdd => DN (x + y) | OSub => DN (x - y) | OMul => DN (x * y) | OLess => DB (Z.ltb x y) end)
  | _, _ => Some (VPrim DU)
  end.
Definition dtruth (v : value dprim) : bool :=
  match v with VPrim (DB b) => b | VPrim (DN z) => negb (Z.eqb z 0) | VPrim DU => false | VObj _ => true end.
Definition demo : psys := mkpsys dprim unit dbop DU DB
  (fun _ v => match v with VPrim (DN x) => Some (VPrim (DN (- x))) | _ => None end)
  dbin dtruth
  (fun p => match p with DN _ => Some 4 | DB _ => Some 5 | DU => None end)
  (fun _ _ => false) (Some 40).
Lemma demo_no_forging : no_forging demo.
Proof.
  split; [|split].
  - intros u v w H. destruct v as [[| |]|]; discriminate.
  - intros b v1 v2 w H. destruct v1 as [[| |]|], v2 as [[| |]|]; discriminate.
  - intros [| |] a H; try discriminate; injection H as <-; lia.
Qed.

Notation st := (@stmt demo).
Notation ex := (@expr demo).
Definition num (z : Z) : ex := ECon (PS := demo) (DN z).
Definition EV (x : name) : ex := EVar x.
Fixpoint args (l : list ex) : @exprs demo := match l with [] => Enil | e :: r => Econs e (args r) end.
Fixpoint seq_ (l : list st) : st := match l with [] => SSkip | [s] => s | s :: r => SSeq s (seq_ r) end.
Definition bin (o : dbop) (a b : ex) : ex := EBin (PS := demo) o a b.
Definition value_of (n : nat) (p : st) : option (value dprim) :=
  match run_program n p with Done v _ _ => Some v | _ => None end.
Definition javascript_value_of (n : nat) (p : st) : option (value dprim) :=
  match program false n p with Ok v _ => Some v | _ => None end.
Definition n_ (z : Z) : option (value dprim) := Some (VPrim (DN z)).
Definition undefined : option (value dprim) := Some (VPrim DU).

(* memory and receivers after a run *)
Definition mem_of (o : @outcome demo) : @mem demo := match o with Done _ m _ => m | _ => mem0 end.
Definition th_of (o : @outcome demo) : nat -> value (prim demo) := match o with Done _ _ th => th | _ => th0 (PS := demo) end.
Definition val_of (o : @outcome demo) : value (prim demo) := match o with Done v _ _ => v | _ => VPrim (DU : prim demo) end.
Definition done (o : @outcome demo) : bool := match o with Done _ _ _ => true | _ => false end.
Lemma done_eq (o : @outcome demo) : done o = true -> o = Done (val_of o) (mem_of o) (th_of o).
Proof. destruct o; discriminate || reflexivity. Qed.
Lemma done_reached n (q : st) : no_arrows q && done (run_program n q) = true -> reached (mem_of (run_program n q)) (th_of (run_program n q)).
Proof.
  intros H. apply andb_true_iff in H. destruct H as [Ha Hd]. exists [q]. split; [cbn [forallb]; now rewrite Ha|].
  eapply scripts_cons; [exact (done_eq _ Hd)|constructor].
Qed.
Lemma done_scripts n (q : st) th m : done (run_more n q th m) = true ->
  scripts [q] m th (mem_of (run_more n q th m)) (th_of (run_more n q th m)).
Proof. intros Hd. eapply scripts_cons; [exact (done_eq _ Hd)|constructor]. Qed.
(* no function in memory that sees scope [a] assigns [x] *)
Definition unassigned (m : @mem demo) (a : nat) (x : name) : bool :=
  forallb (fun o => match fn o with
                    | Some (f, sc) => negb (existsb (Nat.eqb a) sc) || forallb (fun g => negb (has x (asg_s (body g)))) (funs_f f)
                    | None => true end) (objs m).
Lemma unassigned_ok m a x : unassigned m a x = true -> forall g, sees m a g -> never_assigns g x.
Proof.
  intros H g (b & sc & Hb & Hin) q Hq Hx. unfold unassigned in H. rewrite forallb_forall in H.
  assert (HI : In (getobj m b) (objs m)).
  { unfold getobj in *. destruct (Nat.lt_ge_cases b (length (objs m))) as [L|L]; [now apply nth_In|].
    rewrite nth_overflow in Hb by assumption. discriminate. }
  specialize (H _ HI). rewrite Hb in H. apply orb_true_iff in H. destruct H as [H|H].
  - apply negb_true_iff in H. assert (E : existsb (Nat.eqb a) sc = true) by (apply existsb_exists; exists a; split; [exact Hin|apply Nat.eqb_refl]). congruence.
  - rewrite forallb_forall in H. specialize (H q Hq). apply negb_true_iff in H.
    assert (E : has x (asg_s (body q)) = true) by (apply existsb_exists; exists x; split; [exact Hx|apply Nat.eqb_refl]). congruence.
Qed.

(* names *)
Definition f_ := 1. Definition x_ := 2. Definition y_ := 3. Definition g_ := 4. Definition o_ := 5. Definition p_ := 6.
Definition h_ := 7.

(** function f(x) { if (x < 1) return 1; return x * f(x - 1); }  return f(5); *)
Definition factorial : st :=
  seq_ [SFun f_ (Fun false [x_] (seq_ [SIf (bin OLess (EV x_) (num 1)) (SReturn (num 1));
                                       SReturn (bin OMul (EV x_) (ECall (EV f_) (args [bin OSub (EV x_) (num 1)])))]));
        SReturn (ECall (EV f_) (args [num 5]))].
Example factorial_ok : in_order fun_locals factorial && no_arrows factorial && no_loops factorial = true /\
  value_of 400 factorial = n_ 120 /\ javascript_value_of 30 factorial = n_ 120.
Proof. vm_compute. auto. Qed.
(* too deep a recursion is an error *)
Definition deep : st :=
  seq_ [SFun f_ (Fun false [x_] (SReturn (ECall (EV f_) (args [EV x_])))); SReturn (ECall (EV f_) (args [num 5]))].
Example deep_fails : exists m, run_program 1000 deep = Fail m.
Proof. vm_compute. eauto. Qed.

(** function f() { var x = 0; var y = 7; return function () { x = x + 1; return x + y; } }
    g = f(); g(); h = f(); h(); g(); return g(); *)
Definition counter : st :=
  seq_ [SFun f_ (Fun false [] (seq_ [SVar x_ (num 0); SVar y_ (num 7);
          SReturn (EFun (Fun false [] (seq_ [SExpr (EAsg x_ (bin OAdd (EV x_) (num 1))); SReturn (bin OAdd (EV x_) (EV y_))])))]));
        SExpr (EAsg g_ (ECall (EV f_) (args []))); SExpr (ECall (EV g_) (args []));
        SExpr (EAsg h_ (ECall (EV f_) (args []))); SExpr (ECall (EV h_) (args [])); SExpr (ECall (EV g_) (args []))].
Definition count_again : st := SReturn (ECall (EV g_) (args [])).
Example counter_ok : in_order fun_locals (SSeq counter count_again) && no_arrows (SSeq counter count_again) = true /\
  value_of 400 (SSeq counter count_again) = n_ 10 /\ javascript_value_of 30 (SSeq counter count_again) = n_ 10.
Proof. vm_compute. auto. Qed.
(* hypotheses of private_variable: y in the scope (number 8) of the first call of f, while g is called again *)
Example counter_private : exists m th m' th' b f sc,
  reached m th /\ scripts [count_again] m th m' th' /\ fn (getobj m b) = Some (f, sc) /\ In 8 sc /\
  (forall g, sees m 8 g -> never_assigns g y_) /\
  variable m 8 y_ = n_ 7 /\ variable m 8 x_ = n_ 2 /\ variable m' 8 x_ = n_ 3.
Proof.
  set (o := run_program 400 counter). set (o' := run_more 400 count_again (th_of o) (mem_of o)).
  exists (mem_of o), (th_of o), (mem_of o'), (th_of o'), 9,
    (Fun false [] (seq_ [SExpr (EAsg x_ (bin OAdd (EV x_) (num 1))); SReturn (bin OAdd (EV x_) (EV y_))])), [0; 8].
  split; [apply done_reached; vm_compute; reflexivity|]. split; [apply done_scripts; vm_compute; reflexivity|].
  split; [vm_compute; reflexivity|]. split; [cbn; auto|]. split; [apply unassigned_ok; vm_compute; reflexivity|].
  split; [vm_compute; reflexivity|]. split; vm_compute; reflexivity.
Qed.

(** function f(x) { this.y = x; }   return new f(3);  *)
Definition maker : st := SFun f_ (Fun false [x_] (SExpr (ESet EThis y_ (EV x_)))).
Definition make : st := SReturn (ENew (EV f_) (args [num 3])).
Example make_ok : exists m th v m' th' b f sc a,
  reached m th /\ variable m glob f_ = Some (VObj b) /\ fn (getobj m b) = Some (f, sc) /\ plain_returns (body f) = true /\
  run_more 50 make th m = Done v m' th' /\ v = VObj a /\ variable m' a y_ = n_ 3 /\ inherits m' a 7 /\ inherits m' a 1.
Proof.
  set (o := run_program 50 maker). set (o' := run_more 50 make (th_of o) (mem_of o)).
  exists (mem_of o), (th_of o), (val_of o'), (mem_of o'), (th_of o'), 6, (Fun false [x_] (SExpr (ESet EThis y_ (EV x_)))), [0], 9.
  split; [apply done_reached; vm_compute; reflexivity|]. split; [vm_compute; reflexivity|]. split; [vm_compute; reflexivity|]. split; [reflexivity|].
  split; [apply (done_eq o'); vm_compute; reflexivity|]. split; [vm_compute; reflexivity|]. split; [vm_compute; reflexivity|].
  split; [apply inh_one; vm_compute; reflexivity|]. apply inh_more with 7; [vm_compute; reflexivity|]. apply inh_one; vm_compute; reflexivity.
Qed.

(** ** Where jsish departs from JavaScript: each program below gives another value there *)

(** function f(x) { return x; }  y = 1; return f(y, y = 2);    JavaScript: 1 *)
Definition late_argument : st :=
  seq_ [SFun f_ (Fun false [x_] (SReturn (EV x_))); SExpr (EAsg y_ (num 1));
        SReturn (ECall (EV f_) (args [EV y_; EAsg y_ (num 2)]))].
Example late_argument_refuted : value_of 100 late_argument = n_ 2 /\ javascript_value_of 20 late_argument = n_ 1 /\
  in_order fun_locals late_argument = false.
Proof. vm_compute. auto. Qed.

(** function f() { y = 10; return 1; }  y = 1; return y + f();    JavaScript: 2 *)
Definition late_operand : st :=
  seq_ [SFun f_ (Fun false [] (seq_ [SExpr (EAsg y_ (num 10)); SReturn (num 1)])); SExpr (EAsg y_ (num 1));
        SReturn (bin OAdd (EV y_) (ECall (EV f_) (args [])))].
Example late_operand_refuted : value_of 100 late_operand = n_ 11 /\ javascript_value_of 20 late_operand = n_ 2 /\
  in_order fun_locals late_operand = false.
Proof. vm_compute. auto. Qed.

(** o = {g: () => 1, x: 5};  function f() { return this.x; }  x = 1; o.g(); return f();    JavaScript: 1 *)
Definition stale_this : st :=
  seq_ [SExpr (EAsg o_ (EObj (Icons g_ (EFun (Fun true [] (SReturn (num 1)))) (Icons x_ (num 5) Inil))));
        SFun f_ (Fun false [] (SReturn (EGet EThis x_))); SExpr (EAsg x_ (num 1));
        SExpr (EMeth (EV o_) g_ (args [])); SReturn (ECall (EV f_) (args []))].
Example stale_this_refuted : value_of 100 stale_this = n_ 5.
Proof. vm_compute. reflexivity. Qed.

(** o = {x: 1, g: function () { return () => this.x; }};  h = o.g();
    p = {x: 2, g: function () { return h(); }};  return p.g();    JavaScript: 1 *)
Definition arrow_this : st :=
  seq_ [SExpr (EAsg o_ (EObj (Icons x_ (num 1) (Icons g_ (EFun (Fun false [] (SReturn (EFun (Fun true [] (SReturn (EGet EThis x_))))))) Inil))));
        SExpr (EAsg h_ (EMeth (EV o_) g_ (args [])));
        SExpr (EAsg p_ (EObj (Icons x_ (num 2) (Icons g_ (EFun (Fun false [] (SReturn (ECall (EV h_) (args []))))) Inil))));
        SReturn (EMeth (EV p_) g_ (args []))].
Example arrow_this_refuted : value_of 100 arrow_this = n_ 2.
Proof. vm_compute. reflexivity. Qed.

(** function f() { x = 1; (() => { var x = 5; })(); return x; }  return f();    JavaScript: 1; here [x] is
    a variable of [f] *)
Definition arrow_var : st :=
  seq_ [SFun f_ (Fun false [] (seq_ [SExpr (EAsg x_ (num 1)); SExpr (ECall (EFun (Fun true [] (SVar x_ (num 5)))) (args [])); SReturn (EV x_)]));
        SReturn (ECall (EV f_) (args []))].
Example arrow_var_refuted : value_of 100 arrow_var = n_ 5.
Proof. vm_compute. reflexivity. Qed.

(** var x = 1; var x; return x;    JavaScript: 1 *)
Definition redeclared : st := seq_ [SVar x_ (num 1); SDecl x_; SReturn (EV x_)].
Example redeclared_refuted : value_of 100 redeclared = undefined.
Proof. vm_compute. reflexivity. Qed.

(** function f(x) { if (0) { var x = 2; } return x; }  return f(7);    JavaScript: 7 *)
Definition hidden_parameter : st :=
  seq_ [SFun f_ (Fun false [x_] (seq_ [SIf (num 0) (SVar x_ (num 2)); SReturn (EV x_)])); SReturn (ECall (EV f_) (args [num 7]))].
Example hidden_parameter_refuted : value_of 100 hidden_parameter = undefined.
Proof. vm_compute. reflexivity. Qed.

(** o = {x: 1}; p = {x: 2}; Object.setPrototypeOf(o, p); Object.setPrototypeOf(p, o): the second call makes a
    cycle, and the recursion of a lookup of a missing property then never ends. *)
Example cycle_refuted : exists m th m1 m2 o p,
  reached m th /\ set_prototype_of m (VObj o) (VObj p) = Some m1 /\ set_prototype_of m1 (VObj p) (VObj o) = Some m2 /\
  (forall a, ~ inherits (PS := demo) m1 a a) /\ inherits m2 p p.
Proof.
  set (q := seq_ [SExpr (EAsg o_ (EObj (Icons x_ (num 1) Inil))); SExpr (EAsg p_ (EObj (Icons x_ (num 2) Inil)))]).
  set (o := run_program 50 q).
  set (m := mem_of o). set (get := fun r : option (@mem demo) => match r with Some x => x | None => m end).
  set (m1 := get (set_prototype_of m (VObj 6) (VObj 7))). set (m2 := get (set_prototype_of m1 (VObj 7) (VObj 6))).
  assert (HR : reached m (th_of o)) by (apply done_reached; vm_compute; reflexivity).
  exists m, (th_of o), m1, m2, 6, 7. split; [exact HR|]. split; [reflexivity|]. split; [reflexivity|]. split.
  - apply (set_prototype_acyclic m m1 6 7); [|intros H|reflexivity].
    + intros a. apply (prototypes_acyclic demo_no_forging m (th_of o) a HR).
    + assert (P7 : proto (getobj m 7) = Some 1) by (vm_compute; reflexivity).
      assert (P1 : proto (getobj m 1) = None) by (vm_compute; reflexivity).
      inversion H as [a p Hp|a p b Hp H1]; subst.
      * rewrite P7 in Hp. discriminate.
      * rewrite P7 in Hp. injection Hp as <-. inversion H1 as [a p Hp|a p b Hp H2]; subst; rewrite P1 in Hp; discriminate.
  - apply (set_prototype_cycle_refuted m1 m2 7 6); [vm_compute; lia|discriminate|vm_compute; discriminate|apply inh_one; vm_compute; reflexivity|reflexivity].
Qed.
