(** * What JavaScript programs of the modelled fragment mean.

    A functional big-step semantics, independent of the bytecode: expressions are evaluated left to
    right, every operand is a value the moment it has been evaluated, statements finish normally or
    by break / continue / return / throw.  The only things shared with the model are the abstract
    syntax and the primitive operations on values ([vsys]).

    [exec f s E] runs statement [s] in environment [E], giving up ([None]) when some loop makes [f]
    iterations without ending; so "s terminates" is: [exec f s E] is not [None] for some [f]. *)
Require Import ZArith List Bool.
From Verif Require Import VmModel.
Import ListNotations.

(* membership test *)
Notation mem x l := (existsb (Nat.eqb x) l).

Section Sem.
Context {VS : vsys}.
Notation V := (val VS).

(** Environments: global variables and the parameters of the enclosing catch blocks, innermost first. *)
Record env := mkenv { globals : nat -> V; catches : list (nat * V) }.

Fixpoint get_in (cs : list (nat * V)) (g : nat -> V) (x : nat) : V :=
  match cs with
  | [] => g x
  | (y, v) :: r => if Nat.eqb x y then v else get_in r g x
  end.
Definition get (E : env) (x : nat) : V := get_in (catches E) (globals E) x.

Fixpoint set_in (cs : list (nat * V)) (g : nat -> V) (x : nat) (v : V) : env :=
  match cs with
  | [] => mkenv (fun y => if Nat.eqb x y then v else g y) []
  | (y, w) :: r =>
      if Nat.eqb x y then mkenv g ((y, v) :: r)
      else let E := set_in r g x v in mkenv (globals E) ((y, w) :: catches E)
  end.
Definition set (E : env) (x : nat) (v : V) : env := set_in (catches E) (globals E) x v.

(** ** Expressions: [inl (v, E')] a value, [inr (m, E')] an error with message [m]. *)
Definition res := (V * env + V * env)%type.
Definition bindr (r : res) (k : V -> env -> res) : res :=
  match r with inl (v, E) => k v E | inr e => inr e end.
Definition ofop (r : V + V) (E : env) : res :=
  match r with inl v => inl (v, E) | inr m => inr (m, E) end.

Fixpoint eval (e : @expr VS) (E : env) : res :=
  match e with
  | ECon v => inl (v, E)
  | EVar x => inl (get E x, E)
  | EAsg x a => bindr (eval a E) (fun v E => inl (v, set E x v))
  | EOpAsg o x a =>
      let v0 := get E x in
      bindr (eval a E) (fun v E => bindr (ofop (binop VS o v0 v) E) (fun w E => inl (w, set E x w)))
  | EInc inc post x =>
      let n := tonum VS (get E x) in
      let n' := step1 VS inc n in
      let E' := set E x n' in
      match numerr VS n with
      | Some m => inr (m, E')
      | None => inl (if post then n else n', E')
      end
  | EUn u a => bindr (eval a E) (fun v E => ofop (unop VS u v) E)
  | EBin o a b => bindr (eval a E) (fun v E => bindr (eval b E) (fun w E => ofop (binop VS o v w) E))
  | EAnd a b => bindr (eval a E) (fun v E => if truthy VS v then eval b E else inl (v, E))
  | EOr a b => bindr (eval a E) (fun v E => if truthy VS v then inl (v, E) else eval b E)
  | ECond c a b => bindr (eval c E) (fun v E => if truthy VS v then eval a E else eval b E)
  | EComma a b => bindr (eval a E) (fun _ E => eval b E)
  | EVoid a => bindr (eval a E) (fun _ E => inl (vundef VS, E))
  end.

(** ** Statements *)
Inductive outcome :=
| Norm                          (* ran to its end *)
| Brk (l : option nat)          (* break, with optional label *)
| Cnt (l : option nat)          (* continue *)
| Ret (v : option V)            (* return *)
| Thr (v : V).                  (* an exception *)

(** Repeat [one] until it answers with a final result; [None] after [k] rounds. *)
Fixpoint iterate {X R} (k : nat) (one : X -> option (X + R)) (x : X) : option R :=
  match k with
  | O => None
  | S k' => match one x with
            | None => None
            | Some (inl x') => iterate k' one x'
            | Some (inr r) => Some r
            end
  end.

(* does break/continue [l] mean the statement labelled [want]? *)
Definition mine (l want : option nat) : bool :=
  match l, want with
  | None, _ => true
  | Some a, Some b => Nat.eqb a b
  | Some _, None => false
  end.

(* how a loop goes on after its body has ended in [o]: [inl tt] next round, [inr o'] leave with o' *)
Definition after_body (want : option nat) (o : outcome) : unit + outcome :=
  match o with
  | Norm => inl tt
  | Cnt l => if mine l want then inl tt else inr o
  | Brk l => if mine l want then inr Norm else inr o
  | _ => inr o
  end.

Definition opt_cond (c : option (@expr VS)) (E : env) : res :=
  match c with Some e => eval e E | None => inl (vflag VS true, E) end.
Definition opt_step (c : option (@expr VS)) (E : env) : option V * env :=
  match c with
  | Some e => match eval e E with inl (_, E') => (None, E') | inr (m, E') => (Some m, E') end
  | None => (None, E)
  end.

(** Which clause of a switch on value [v] is entered: the first case equal (===) to [v], in order,
    else the default clause, else none.  [inr] is an error while evaluating a case expression. *)
Fixpoint pick (v : V) (cs : @cases VS) (E : env) (i : nat) : (option nat * env) + (V * env) :=
  match cs with
  | CNil => inl (None, E)
  | CCons None _ r => pick v r E (S i)
  | CCons (Some e) _ r =>
      match bindr (eval e E) (fun w E => ofop (binop VS StrictEq v w) E) with
      | inr m => inr m
      | inl (b, E') => if truthy VS b then inl (Some i, E') else pick v r E' (S i)
      end
  end.
Fixpoint default_of (cs : @cases VS) (i : nat) : option nat :=
  match cs with
  | CNil => None
  | CCons None _ r => match default_of r (S i) with Some j => Some j | None => Some i end
  | CCons (Some _) _ r => default_of r (S i)
  end.

Definition pop_catch (E : env) : env := mkenv (globals E) (List.tl (catches E)).

Fixpoint exec (f : nat) (s : @stmt VS) (E : env) {struct s} : option (outcome * env) :=
  match s with
  | SSkip => Some (Norm, E)
  | SExpr e => match eval e E with inl (_, E') => Some (Norm, E') | inr (m, E') => Some (Thr m, E') end
  | SSeq a b => match exec f a E with Some (Norm, E') => exec f b E' | r => r end
  | SVar x None => Some (Norm, set E x (vundef VS))
  | SVar x (Some e) =>
      match eval e E with inl (v, E') => Some (Norm, set E' x v) | inr (m, E') => Some (Thr m, E') end
  | SIf c a =>
      match eval c E with
      | inl (v, E') => if truthy VS v then exec f a E' else Some (Norm, E')
      | inr (m, E') => Some (Thr m, E')
      end
  | SIfElse c a b =>
      match eval c E with
      | inl (v, E') => if truthy VS v then exec f a E' else exec f b E'
      | inr (m, E') => Some (Thr m, E')
      end
  | SWhile l c a =>
      iterate f (fun E =>
        match eval c E with
        | inr (m, E') => Some (inr (Thr m, E'))
        | inl (v, E') =>
            if truthy VS v then
              match exec f a E' with
              | None => None
              | Some (o, E'') => match after_body l o with inl _ => Some (inl E'') | inr o' => Some (inr (o', E'')) end
              end
            else Some (inr (Norm, E'))
        end) E
  | SDo l a c =>
      iterate f (fun E =>
        match exec f a E with
        | None => None
        | Some (o, E') =>
            match after_body l o with
            | inr o' => Some (inr (o', E'))
            | inl _ => match eval c E' with
                       | inr (m, E'') => Some (inr (Thr m, E''))
                       | inl (v, E'') => if truthy VS v then Some (inl E'') else Some (inr (Norm, E''))
                       end
            end
        end) E
  | SFor l init c st a =>
      match exec f init E with
      | Some (Norm, E0) =>
          iterate f (fun E =>
            match opt_cond c E with
            | inr (m, E') => Some (inr (Thr m, E'))
            | inl (v, E') =>
                if truthy VS v then
                  match exec f a E' with
                  | None => None
                  | Some (o, E'') =>
                      match after_body l o with
                      | inr o' => Some (inr (o', E''))
                      | inl _ => match opt_step st E'' with
                                 | (Some m, E3) => Some (inr (Thr m, E3))
                                 | (None, E3) => Some (inl E3)
                                 end
                      end
                  end
                else Some (inr (Norm, E'))
            end) E0
      | r => r
      end
  | SForIn l isof x e a =>
      match eval e E with
      | inr (m, E') => Some (Thr m, E')
      | inl (v, E') =>
          match keysof VS isof v with
          | inr m => Some (Thr m, E')
          | inl ks =>
              iterate f (fun p : list V * env =>
                match fst p with
                | [] => Some (inr (Norm, snd p))
                | k :: ks' =>
                    match exec f a (set (snd p) x k) with
                    | None => None
                    | Some (o, E'') => match after_body l o with inl _ => Some (inl (ks', E'')) | inr o' => Some (inr (o', E'')) end
                    end
                end) (ks, E')
          end
      end
  | SSwitch l e cs =>
      match eval e E with
      | inr (m, E') => Some (Thr m, E')
      | inl (v, E') =>
          match pick v cs E' 0 with
          | inr (m, E'') => Some (Thr m, E'')
          | inl (p, E'') =>
              match (match p with Some i => Some i | None => default_of cs 0 end) with
              | None => Some (Norm, E'')
              | Some i =>
                  match exec_from f cs i E'' with
                  | Some (Brk lb, E3) => if mine lb l then Some (Norm, E3) else Some (Brk lb, E3)
                  | r => r
                  end
              end
          end
      end
  | SBreak l => Some (Brk l, E)
  | SContinue l => Some (Cnt l, E)
  | SReturn None => Some (Ret None, E)
  | SReturn (Some e) =>
      match eval e E with inl (v, E') => Some (Ret (Some v), E') | inr (m, E') => Some (Thr m, E') end
  | SThrow e =>
      match eval e E with inl (v, E') => Some (Thr v, E') | inr (m, E') => Some (Thr m, E') end
  | STry b c fin =>
      let handled :=
        match exec f b E with
        | Some (Thr v, E') =>
            match c with
            | None => Some (Thr v, E')
            | Some (x, h) =>
                match exec f h (mkenv (globals E') ((x, v) :: catches E')) with
                | Some (o, E'') => Some (o, pop_catch E'')
                | None => None
                end
            end
        | r => r
        end in
      match handled with
      | None => None
      | Some (o, E') =>
          match fin with
          | None => Some (o, E')
          | Some g => match exec f g E' with
                      | Some (Norm, E'') => Some (o, E'')
                      | r => r
                      end
          end
      end
  end
(* run the clause bodies from the i-th on, falling through *)
with exec_from (f : nat) (cs : @cases VS) (i : nat) (E : env) {struct cs} : option (outcome * env) :=
  match cs with
  | CNil => Some (Norm, E)
  | CCons _ s r =>
      match i with
      | S i' => exec_from f r i' E
      | O => match exec f s E with Some (Norm, E') => exec_from f r 0 E' | x => x end
      end
  end.

(** ** Syntactic notions used in the hypotheses *)

(* variables an expression may assign *)
Fixpoint assigns (e : @expr VS) : list nat :=
  match e with
  | ECon _ | EVar _ => []
  | EAsg x a | EOpAsg _ x a => x :: assigns a
  | EInc _ _ x => [x]
  | EUn _ a | EVoid a => assigns a
  | EBin _ a b | EAnd a b | EOr a b | EComma a b => assigns a ++ assigns b
  | ECond c a b => assigns c ++ assigns a ++ assigns b
  end.
(* variables the value of an expression may be read from after it has been evaluated: x for the
   expressions x, x = e, x op= e *)
Fixpoint refs (e : @expr VS) : list nat :=
  match e with
  | EVar x | EAsg x _ | EOpAsg _ x _ => [x]
  | EAnd _ b | EOr _ b | EComma _ b => refs b
  | ECond _ a b => refs a ++ refs b
  | _ => []
  end.
Definition disjointb (a b : list nat) : bool := forallb (fun x => negb (existsb (Nat.eqb x) b)) a.

(* no operand assigns a variable that is itself the left operand it is combined with *)
Fixpoint ordered (e : @expr VS) : bool :=
  match e with
  | ECon _ | EVar _ | EInc _ _ _ => true
  | EAsg _ a | EUn _ a | EVoid a => ordered a
  | EOpAsg _ x a => ordered a && negb (existsb (Nat.eqb x) (assigns a))
  | EBin _ a b => ordered a && ordered b && disjointb (refs a) (assigns b)
  | EAnd a b | EOr a b | EComma a b => ordered a && ordered b
  | ECond c a b => ordered c && ordered a && ordered b
  end.

(* break/continue statements that leave the statement *)
Definition keep (is_switch : bool) (want : option nat) (j : kind * option nat) : bool :=
  match j with
  | (KBreak, l) => negb (mine l want)
  | (KContinue, l) => is_switch || negb (mine l want)
  end.
Fixpoint escapes (s : @stmt VS) : list (kind * option nat) :=
  match s with
  | SBreak l => [(KBreak, l)]
  | SContinue l => [(KContinue, l)]
  | SSeq a b | SIfElse _ a b => escapes a ++ escapes b
  | SIf _ a => escapes a
  | SWhile l _ a | SDo l a _ | SForIn l _ _ _ a => filter (keep false l) (escapes a)
  | SFor l i _ _ a => escapes i ++ filter (keep false l) (escapes a)
  | SSwitch l _ cs => filter (keep true l) (escapes_cs cs)
  | STry b c f => escapes b ++ (match c with Some (_, h) => escapes h | None => [] end)
                  ++ (match f with Some g => escapes g | None => [] end)
  | _ => []
  end
with escapes_cs (cs : @cases VS) : list (kind * option nat) :=
  match cs with CNil => [] | CCons _ s r => escapes s ++ escapes_cs r end.

(* [pops k l]: how many operand-stack slots belong to the switch / for-in statements that a jump (k, l)
   leaves.  [exits_ok]: a try statement with a finally block is not left by such a jump. *)
Definition loop_pops (is_switch : bool) (want : option nat) (n : nat) (pops : kind -> option nat -> nat)
  : kind -> option nat -> nat :=
  fun k l => if keep is_switch want (k, l) then (pops k l + n)%nat else 0%nat.
Fixpoint exits_ok (pops : kind -> option nat -> nat) (s : @stmt VS) : bool :=
  match s with
  | SSeq a b | SIfElse _ a b => exits_ok pops a && exits_ok pops b
  | SIf _ a => exits_ok pops a
  | SWhile l _ a | SDo l a _ => exits_ok (loop_pops false l 0 pops) a
  | SForIn l _ _ _ a => exits_ok (loop_pops false l 2 pops) a
  | SFor l i _ _ a => exits_ok pops i && exits_ok (loop_pops false l 0 pops) a
  | SSwitch l _ cs => exits_ok_cs (loop_pops true l 1 pops) cs
  | STry b c f =>
      exits_ok pops b && (match c with Some (_, h) => exits_ok pops h | None => true end) &&
      (match f with
       | Some g => exits_ok pops g &&
                   forallb (fun j => Nat.eqb (pops (fst j) (snd j)) 0)
                     (escapes b ++ match c with Some (_, h) => escapes h | None => [] end)
       | None => true
       end)
  | _ => true
  end
with exits_ok_cs (pops : kind -> option nat -> nat) (cs : @cases VS) : bool :=
  match cs with CNil => true | CCons _ s r => exits_ok pops s && exits_ok_cs pops r end.

(** ** Well-behaved programs (the hypothesis of the correctness theorem for whole programs; each
    clause excludes one of the deviations refuted in VmProps.v) *)

(* [D]: the parameters of the enclosing catch blocks.  [defd D e]: the value of [e] is certainly not
   undefined, when these parameters are not. *)
Fixpoint defd (D : list nat) (e : @expr VS) : bool :=
  match e with
  | ECon v => negb (isundef VS v)
  | EVar x => mem x D
  | EAsg _ a => defd D a
  | EOpAsg _ _ _ | EInc _ _ _ | EUn _ _ | EBin _ _ _ => true
  | EAnd a b | EOr a b => defd D a && defd D b
  | ECond _ a b => defd D a && defd D b
  | EComma _ b => defd D b
  | EVoid _ => false
  end.
(* a catch parameter is not assigned a possibly undefined value *)
Definition asg1 (D : list nat) (x : nat) (e : @expr VS) : bool := negb (mem x D) || defd D e.
Fixpoint asg_ok (D : list nat) (e : @expr VS) : bool :=
  match e with
  | ECon _ | EVar _ | EInc _ _ _ => true
  | EAsg x a => asg_ok D a && asg1 D x a
  | EOpAsg _ _ a | EUn _ a | EVoid a => asg_ok D a
  | EBin _ a b | EAnd a b | EOr a b | EComma a b => asg_ok D a && asg_ok D b
  | ECond c a b => asg_ok D c && asg_ok D a && asg_ok D b
  end.
(* the value of x++ or x-- is not used *)
Fixpoint no_post (e : @expr VS) : bool :=
  match e with
  | ECon _ | EVar _ => true
  | EInc _ post _ => negb post
  | EAsg _ a | EOpAsg _ _ a | EUn _ a | EVoid a => no_post a
  | EBin _ a b | EAnd a b | EOr a b | EComma a b => no_post a && no_post b
  | ECond c a b => no_post c && no_post a && no_post b
  end.
Definition ok_e (D : list nat) (e : @expr VS) : bool := ordered e && asg_ok D e && no_post e.
(* an expression whose value is thrown away *)
Definition ok_d (D : list nat) (e : @expr VS) : bool :=
  match e with EInc _ _ _ => true | _ => ok_e D e end.

(* the expression cannot fail *)
Fixpoint calm_e (e : @expr VS) : bool :=
  match e with
  | ECon _ | EVar _ => true
  | EAsg _ a | EVoid a => calm_e a
  | EOpAsg o _ a => calm_e a && bin_safe VS o
  | EInc _ _ _ => inc_safe VS
  | EUn u a => calm_e a && un_safe VS u
  | EBin o a b => calm_e a && calm_e b && bin_safe VS o
  | EAnd a b | EOr a b | EComma a b => calm_e a && calm_e b
  | ECond c a b => calm_e c && calm_e a && calm_e b
  end.
Definition calm_o (o : option (@expr VS)) : bool := match o with Some e => calm_e e | None => true end.
(* the statement cannot fail and contains no throw and no try *)
Fixpoint calm (s : @stmt VS) : bool :=
  match s with
  | SSkip | SBreak _ | SContinue _ => true
  | SExpr e => calm_e e
  | SSeq a b => calm a && calm b
  | SVar _ e => calm_o e
  | SIf c a | SWhile _ c a | SDo _ a c => calm_e c && calm a
  | SIfElse c a b => calm_e c && calm a && calm b
  | SFor _ i c st a => calm i && calm_o c && calm_o st && calm a
  | SForIn _ _ _ e a => calm_e e && keys_safe VS && calm a
  | SSwitch _ e cs => calm_e e && bin_safe VS StrictEq && calm_cs cs
  | SReturn e => calm_o e
  | SThrow _ | STry _ _ _ => false
  end
with calm_cs (cs : @cases VS) : bool :=
  match cs with CNil => true | CCons e s r => calm_o e && calm s && calm_cs r end.

(* contains a return statement *)
Fixpoint returns (s : @stmt VS) : bool :=
  match s with
  | SReturn _ => true
  | SSeq a b | SIfElse _ a b | SFor _ a _ _ b => returns a || returns b
  | SIf _ a | SWhile _ _ a | SDo _ a _ | SForIn _ _ _ _ a => returns a
  | SSwitch _ _ cs => returns_cs cs
  | STry b c f => returns b || (match c with Some (_, h) => returns h | None => false end)
                  || (match f with Some g => returns g | None => false end)
  | _ => false
  end
with returns_cs (cs : @cases VS) : bool :=
  match cs with CNil => false | CCons _ s r => returns s || returns_cs r end.

(* contains a throw statement outside nested try and catch blocks *)
Fixpoint throwing (s : @stmt VS) : bool :=
  match s with
  | SThrow _ => true
  | SSeq a b | SIfElse _ a b | SFor _ a _ _ b => throwing a || throwing b
  | SIf _ a | SWhile _ _ a | SDo _ a _ | SForIn _ _ _ _ a => throwing a
  | SSwitch _ _ cs => throwing_cs cs
  | STry _ _ (Some g) => throwing g
  | _ => false
  end
with throwing_cs (cs : @cases VS) : bool :=
  match cs with CNil => false | CCons _ s r => throwing s || throwing_cs r end.

Definition ok_o (D : list nat) (o : option (@expr VS)) : bool := match o with Some e => ok_e D e | None => true end.
Definition ok_do (D : list nat) (o : option (@expr VS)) : bool := match o with Some e => ok_d D e | None => true end.
(* [d]: the enclosing try statements, innermost first: true in the catch or finally block of that try.
   An error (not a throw statement) in the catch or finally block of a try that stands inside another try
   reaches the outer catch without its message, so such blocks must not fail except by throw: [heard d] says
   that this is not the case here, [hear d e] that it is not or that e cannot fail. *)
Definition heard (d : list bool) : bool := match d with true :: _ :: _ => false | _ => true end.
Definition hear (d : list bool) (e : @expr VS) : bool := heard d || calm_e e.
Definition hear_o (d : list bool) (e : option (@expr VS)) : bool := heard d || calm_o e.
Fixpoint wf (D : list nat) (d : list bool) (s : @stmt VS) : bool :=
  match s with
  | SSkip | SBreak _ | SContinue _ => true
  | SExpr e => ok_d D e && hear d e
  | SSeq a b => wf D d a && wf D d b
  | SVar x None => negb (mem x D)
  | SVar x (Some e) => ok_e D e && hear d e && asg1 D x e
  | SIf c a | SWhile _ c a | SDo _ a c => ok_e D c && hear d c && wf D d a
  | SIfElse c a b => ok_e D c && hear d c && wf D d a && wf D d b
  | SFor _ i c st a => wf D d i && ok_o D c && hear_o d c && ok_do D st && hear_o d st && wf D d a
  | SForIn _ _ x e a => ok_e D e && hear d e && (heard d || keys_safe VS) && negb (mem x D) && wf D d a
  | SSwitch _ e cs => ok_e D e && hear d e && (heard d || bin_safe VS StrictEq) && wf_cs D d cs
  | SReturn e => ok_o D e && hear_o d e
  | SThrow e => ok_e D e && hear d e && defd D e
  | STry b c f =>
      wf D (false :: d) b &&
      (match c with Some (x, h) => wf (x :: D) (true :: d) h | None => true end) &&
      (match f with
       | None => true
       | Some g =>
           wf D (true :: d) g && calm g && (match escapes g with [] => true | _ => false end) &&
           negb (returns b) &&
           (match c with
            | Some (_, h) => negb (returns h) && negb ((match d with [] => true | _ => false end) && throwing h)
            | None => true
            end)
       end)
  end
with wf_cs (D : list nat) (d : list bool) (cs : @cases VS) : bool :=
  match cs with CNil => true | CCons e s r => ok_o D e && hear_o d e && wf D d s && wf_cs D d r end.

(* the hypothesis on programs: well-behaved, no break/continue without a loop, and no break/continue out
   of a for-in or switch through a finally block *)
Definition well_behaved (s : @stmt VS) : bool :=
  wf [] [] s && (match escapes s with [] => true | _ => false end) && exits_ok (fun _ _ => 0%nat) s.

End Sem.
