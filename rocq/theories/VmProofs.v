(** * An intermediate semantics that mirrors what the VM does (references on the stack are read late,
    return leaves without running finally blocks, a throw in a top-level catch block ends the run),
    stated on the syntax; and the induction principle for statements. *)
Require Import ZArith List Bool Lia.
From Verif Require Import VmModel VmSpec.
Import ListNotations.
Local Open Scope Z_scope.

Section Late.
Context {VS : vsys}.
Notation V := (val VS).
Notation st := (@state VS).

Definition lres := (@slot VS * st + st)%type.
Definition lbind (r : lres) (k : @slot VS -> st -> lres) : lres :=
  match r with inl (a, s) => k a s | inr s => inr s end.
Section Hold.
(* whether a message is kept for a catch block *)
Variable hold : bool.
Definition lop (r : V + V) (s : st) : lres :=
  match r with inl v => inl (SVal v, s) | inr m => inr (log_error hold s m) end.

Fixpoint leval (e : @expr VS) (s : st) : lres :=
  match e with
  | ECon v => inl (SVal v, s)
  | EVar x => inl (SRef (resolve s x), s)
  | EAsg x a =>
      let l := resolve s x in
      lbind (leval a s) (fun b s => inl (SRef l, wrloc s l (deref s b)))
  | EOpAsg o x a =>
      let l := resolve s x in
      lbind (leval a s) (fun b s =>
        lbind (lop (binop VS o (rdloc s l) (deref s b)) s) (fun c s => inl (SRef l, wrloc s l (deref s c))))
  | EInc inc post x =>
      let l := resolve s x in
      let n := tonum VS (rdloc s l) in
      let n' := step1 VS inc n in
      let s' := wrloc s l n' in
      match numerr VS n with
      | None => inl (SVal (if post then step1 VS (negb inc) n' else n'), s')
      | Some m => inr (log_error hold s' m)
      end
  | EUn u a => lbind (leval a s) (fun b s => lop (unop VS u (deref s b)) s)
  | EBin o a b => lbind (leval a s) (fun x s => lbind (leval b s) (fun y s =>
                    lop (binop VS o (deref s x) (deref s y)) s))
  | EAnd a b => lbind (leval a s) (fun x s => if truthy VS (deref s x) then leval b s else inl (SVal (deref s x), s))
  | EOr a b => lbind (leval a s) (fun x s => if truthy VS (deref s x) then inl (SVal (deref s x), s) else leval b s)
  | ECond c a b => lbind (leval c s) (fun x s => if truthy VS (deref s x) then leval a s else leval b s)
  | EComma a b => lbind (leval a s) (fun _ s => leval b s)
  | EVoid a => lbind (leval a s) (fun _ s => inl (SVal (vundef VS), s))
  end.

(* value of an expression used as condition etc. *)
Definition lval (e : @expr VS) (s : st) : (V * st) + st :=
  match leval e s with inl (a, s') => inl (deref s' a, s') | inr s' => inr s' end.

Definition lcond (c : option (@expr VS)) (s : st) : (V * st) + st :=
  match c with Some e => lval e s | None => inl (vflag VS true, s) end.
Definition lstep (c : option (@expr VS)) (s : st) : bool * st :=
  match c with
  | Some e => match leval e s with inl (_, s') => (true, s') | inr s' => (false, s') end
  | None => (true, s)
  end.

Fixpoint lpick (v : V) (cs : @cases VS) (s : st) (i : nat) : (option nat * st) + st :=
  match cs with
  | CNil => inl (None, s)
  | CCons None _ r => lpick v r s (S i)
  | CCons (Some e) _ r =>
      match lbind (leval e s) (fun b s => lop (binop VS StrictEq v (deref s b)) s) with
      | inr s' => inr s'
      | inl (b, s') => if truthy VS (deref s' b) then inl (Some i, s') else lpick v r s' (S i)
      end
  end.

End Hold.

(* the active try statements, innermost first: true in their catch or finally block *)
Definition hold (d : list bool) : bool := match d with b :: _ => negb b | [] => false end.

Inductive lout := LNorm | LBrk (l : option nat) | LCnt (l : option nat) | LRet (v : option V)
  | LThr (byth : bool) | LAbort.

Definition lafter (want : option nat) (o : lout) : unit + lout :=
  match o with
  | LNorm => inl tt
  | LCnt l => if label_hit l want then inl tt else inr o
  | LBrk l => if label_hit l want then inr LNorm else inr o
  | _ => inr o
  end.

Definition lfin (o : lout) (s : st) (r : option (lout * st)) : option (lout * st) :=
  match r with
  | Some (LNorm, s') => Some (match o with LThr _ => LThr false | _ => o end, s')
  | r => r
  end.

Fixpoint lx (f : nat) (d : list bool) (x : @stmt VS) (s : st) {struct x} : option (lout * st) :=
  match x with
  | SSkip => Some (LNorm, s)
  | SExpr e => match leval (hold d) e s with inl (_, s') => Some (LNorm, s') | inr s' => Some (LThr false, s') end
  | SSeq a b => match lx f d a s with Some (LNorm, s') => lx f d b s' | r => r end
  | SVar x None => Some (LNorm, wrloc s (resolve s x) (vundef VS))
  | SVar x (Some e) =>
      match leval (hold d) e s with
      | inl (b, s') => Some (LNorm, wrloc s' (resolve s x) (deref s' b))
      | inr s' => Some (LThr false, s')
      end
  | SIf c a =>
      match lval (hold d) c s with
      | inl (v, s') => if truthy VS v then lx f d a s' else Some (LNorm, s')
      | inr s' => Some (LThr false, s')
      end
  | SIfElse c a b =>
      match lval (hold d) c s with
      | inl (v, s') => if truthy VS v then lx f d a s' else lx f d b s'
      | inr s' => Some (LThr false, s')
      end
  | SWhile l c a =>
      iterate f (fun s =>
        match lval (hold d) c s with
        | inr s' => Some (inr (LThr false, s'))
        | inl (v, s') =>
            if truthy VS v then
              match lx f d a s' with
              | None => None
              | Some (o, s'') => match lafter l o with inl _ => Some (inl s'') | inr o' => Some (inr (o', s'')) end
              end
            else Some (inr (LNorm, s'))
        end) s
  | SDo l a c =>
      iterate f (fun s =>
        match lx f d a s with
        | None => None
        | Some (o, s') =>
            match lafter l o with
            | inr o' => Some (inr (o', s'))
            | inl _ => match lval (hold d) c s' with
                       | inr s'' => Some (inr (LThr false, s''))
                       | inl (v, s'') => if truthy VS v then Some (inl s'') else Some (inr (LNorm, s''))
                       end
            end
        end) s
  | SFor l init c stp a =>
      match lx f d init s with
      | Some (LNorm, s0) =>
          iterate f (fun s =>
            match lcond (hold d) c s with
            | inr s' => Some (inr (LThr false, s'))
            | inl (v, s') =>
                if truthy VS v then
                  match lx f d a s' with
                  | None => None
                  | Some (o, s'') =>
                      match lafter l o with
                      | inr o' => Some (inr (o', s''))
                      | inl _ => match lstep (hold d) stp s'' with
                                 | (false, s3) => Some (inr (LThr false, s3))
                                 | (true, s3) => Some (inl s3)
                                 end
                      end
                  end
                else Some (inr (LNorm, s'))
            end) s0
      | r => r
      end
  | SForIn l isof x e a =>
      match lval (hold d) e s with
      | inr s' => Some (LThr false, s')
      | inl (v, s') =>
          match keysof VS isof v with
          | inr m => Some (LThr false, log_error (hold d) s' m)
          | inl ks =>
              iterate f (fun p : list V * st =>
                match fst p with
                | [] => Some (inr (LNorm, snd p))
                | k :: ks' =>
                    match lx f d a (wrloc (snd p) (resolve (snd p) x) k) with
                    | None => None
                    | Some (o, s'') => match lafter l o with inl _ => Some (inl (ks', s'')) | inr o' => Some (inr (o', s'')) end
                    end
                end) (ks, s')
          end
      end
  | SSwitch l e cs =>
      match lval (hold d) e s with
      | inr s' => Some (LThr false, s')
      | inl (v, s') =>
          match lpick (hold d) v cs s' 0 with
          | inr s'' => Some (LThr false, s'')
          | inl (p, s'') =>
              match (match p with Some i => Some i | None => default_of cs 0 end) with
              | None => Some (LNorm, s'')
              | Some i =>
                  match lxf f d cs i s'' with
                  | Some (LBrk lb, s3) => if label_hit lb l then Some (LNorm, s3) else Some (LBrk lb, s3)
                  | r => r
                  end
              end
          end
      end
  | SBreak l => Some (LBrk l, s)
  | SContinue l => Some (LCnt l, s)
  | SReturn None => Some (LRet None, s)
  | SReturn (Some e) =>
      match lval (hold d) e s with inl (v, s') => Some (LRet (Some v), s') | inr s' => Some (LThr false, s') end
  | SThrow e =>
      match lval (hold d) e s with inl (v, s') => Some (LThr true, set_exc s' v) | inr s' => Some (LThr false, s') end
  | STry b c fin =>
      let n := length (frames s) in
      let handled :=
        match lx f (false :: d) b s with
        | Some (LThr _, s') =>
            match c with
            | None => Some (LThr false, s')
            | Some (x, h) =>
                match lx f (true :: d) h (bind_exc s' x) with
                | Some (LThr bt, s'') => Some (if bt && match d with [] => true | _ => false end then LAbort else LThr bt, s'')
                | r => r
                end
            end
        | r => r
        end in
      match handled with
      | None => None
      | Some (LRet v, s') => Some (LRet v, s')
      | Some (LAbort, s') => Some (LAbort, s')
      | Some (o, s') =>
          lfin o s' (match fin with None => Some (LNorm, restore s' n) | Some g => lx f (true :: d) g (restore s' n) end)
      end
  end
with lxf (f : nat) (d : list bool) (cs : @cases VS) (i : nat) (s : st) {struct cs} : option (lout * st) :=
  match cs with
  | CNil => Some (LNorm, s)
  | CCons _ x r =>
      match i with
      | S i' => lxf f d r i' s
      | O => match lx f d x s with Some (LNorm, s') => lxf f d r 0 s' | x => x end
      end
  end.

(** Induction over statements and clause lists together. *)
Section Ind.
Variable P : @stmt VS -> Prop.
Variable Q : @cases VS -> Prop.
Hypothesis HSkip : P SSkip.
Hypothesis HExpr : forall e, P (SExpr e).
Hypothesis HSeq : forall a b, P a -> P b -> P (SSeq a b).
Hypothesis HVar : forall x e, P (SVar x e).
Hypothesis HIf : forall c a, P a -> P (SIf c a).
Hypothesis HIfElse : forall c a b, P a -> P b -> P (SIfElse c a b).
Hypothesis HWhile : forall l c a, P a -> P (SWhile l c a).
Hypothesis HDo : forall l a c, P a -> P (SDo l a c).
Hypothesis HFor : forall l i c s a, P i -> P a -> P (SFor l i c s a).
Hypothesis HForIn : forall l o x e a, P a -> P (SForIn l o x e a).
Hypothesis HSwitch : forall l e cs, Q cs -> P (SSwitch l e cs).
Hypothesis HBreak : forall l, P (SBreak l).
Hypothesis HContinue : forall l, P (SContinue l).
Hypothesis HReturn : forall e, P (SReturn e).
Hypothesis HThrow : forall e, P (SThrow e).
Hypothesis HTry : forall b c g, P b -> (forall x h, c = Some (x, h) -> P h) -> (forall h, g = Some h -> P h) -> P (STry b c g).
Hypothesis HNil : Q CNil.
Hypothesis HCons : forall e s cs, P s -> Q cs -> Q (CCons e s cs).

Fixpoint stmt_both (s : @stmt VS) : P s
with cases_both (cs : @cases VS) : Q cs.
Proof.
  - destruct s.
    + exact HSkip.
    + apply HExpr.
    + apply HSeq; apply stmt_both.
    + apply HVar.
    + apply HIf; apply stmt_both.
    + apply HIfElse; apply stmt_both.
    + apply HWhile; apply stmt_both.
    + apply HDo; apply stmt_both.
    + apply HFor; apply stmt_both.
    + apply HForIn; apply stmt_both.
    + apply HSwitch; apply cases_both.
    + apply HBreak.
    + apply HContinue.
    + apply HReturn.
    + apply HThrow.
    + apply HTry.
      * apply stmt_both.
      * intros x h E. destruct c as [[y k] | ]; [ | discriminate E]. injection E as E1 E2. rewrite <- E2. apply stmt_both.
      * intros h E. destruct f as [k | ]; [ | discriminate E]. injection E as E1. rewrite <- E1. apply stmt_both.
  - destruct cs.
    + exact HNil.
    + apply HCons; [apply stmt_both | apply cases_both].
Qed.
End Ind.
End Late.
