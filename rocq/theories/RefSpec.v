(** What reference counts are for: a cell (value or object) lives exactly as long as somebody
    holds it.  Nothing here mentions counts or freeing. *)
From Coq Require Import ZArith List Bool.
Import ListNotations.
From Verif Require Import RefModel.     (* for [body], [payload], [call], [answer] and [INT_MAX] only *)
Local Open Scope Z_scope.

(** The cells there are, by address; the cells the program holds, as often as it holds them; and
    the cells that were created without a holder and have never been held. *)
Record state := mkS { cells : list (option body); held : list nat; fresh : list nat }.
Definition at_ (s : state) (a : nat) : option body := nth a (cells s) None.

(** The cells a cell refers to, with repetition. *)
Fixpoint somes {A} (l : list (option A)) : list A :=
  match l with [] => [] | Some a :: r => a :: somes r | None :: r => somes r end.
Definition out (b : body) : list nat :=
  match b with
  | BValue (PPlain _) => []
  | BValue (PObject o) => [o]
  | BValue (PVariable v) => [v]
  | BObject props elems proto own => map snd props ++ somes elems ++ (if own then somes [proto] else [])
  end.
Definition refers (s : state) (b a : nat) : Prop := exists x, at_ s b = Some x /\ In a (out x).
(** How many holders a cell has: the program, and other cells. *)
Definition occurrences (a : nat) (l : list nat) : nat := count_occ Nat.eq_dec l a.
Definition holders (s : state) (a : nat) : Z :=
  Z.of_nat (occurrences a (held s) + occurrences a (flat_map out (somes (cells s)))).

(** Cells the program can get at. *)
Definition owns (s : state) (a : nat) : Prop := In a (held s) \/ In a (fresh s).
Inductive reachable (s : state) : nat -> Prop :=
  | reach_own a : owns s a -> reachable s a
  | reach_ref b a : reachable s b -> refers s b a -> reachable s a.

(** A cell nobody holds: neither the program, nor any cell but those that nobody holds either.
    (Inductive: cells that hold each other in a circle are not among them.) *)
Inductive unheld (s : state) : nat -> Prop :=
  | unheld_intro a : ~ In a (held s) -> ~ In a (fresh s) ->
      (forall b, refers s b a -> unheld s b) -> unheld s a.

(** The cells that nobody holds disappear, the others stay as they are. *)
Definition swept (s s' : state) : Prop :=
  length (cells s') = length (cells s) /\ held s' = held s /\ fresh s' = fresh s /\
  forall a, (unheld s a -> at_ s' a = None) /\ (~ unheld s a -> at_ s' a = at_ s a).

(** Effects of the calls on what there is, before anything disappears. *)
Definition assign (a : nat) (b : body) (s : state) : state :=
  mkS (firstn a (cells s) ++ Some b :: skipn (S a) (cells s)) (held s) (fresh s).
Definition add (b : body) (s : state) : state := mkS (cells s ++ [Some b]) (held s) (fresh s).
Definition hold (a : nat) (s : state) : state := mkS (cells s) (a :: held s) (fresh s).
Fixpoint minus (a : nat) (l : list nat) : list nat :=
  match l with [] => [] | x :: r => if Nat.eq_dec a x then r else x :: minus a r end.
Definition release (a : nat) (s : state) : state := mkS (cells s) (minus a (held s)) (fresh s).
Definition get_fresh (a : nat) (s : state) : state := mkS (cells s) (held s) (a :: fresh s).
(** [a] has got a holder *)
Definition settle (a : nat) (s : state) : state :=
  mkS (cells s) (held s) (filter (fun x => negb (Nat.eqb x a)) (fresh s)).
Definition next (s : state) : nat := length (cells s).
Definition is_value (s : state) (a : nat) : Prop := exists p, at_ s a = Some (BValue p).
Definition undefined : body := BValue (PPlain 0).

Definition value_of (s : state) (a : nat) (p : payload) : Prop := at_ s a = Some (BValue p).
Definition object (s : state) (a : nat) ps es pr w : Prop := at_ s a = Some (BObject ps es pr w).

(** An element put at position [n], with holes before it if need be. *)
Definition with_element (n v : nat) (es es' : list (option nat)) : Prop :=
  length es' = Nat.max (length es) (S n) /\
  nth n es' None = Some v /\ (forall m, m <> n -> nth m es' None = nth m es None).
(** Property [k] is now [v], all others are as before, and none is there twice. *)
Definition lookup (k : Z) (ps : list (Z * nat)) : option nat :=
  match filter (fun p => fst p =? k) ps with [] => None | (_, v) :: _ => Some v end.
Definition with_property (k : Z) (v : nat) (ps ps' : list (Z * nat)) : Prop :=
  (forall j, lookup j ps' = if j =? k then Some v else lookup j ps) /\ NoDup (map fst ps').
Definition without_property (k : Z) (ps ps' : list (Z * nat)) : Prop :=
  (forall j, lookup j ps' = if j =? k then None else lookup j ps) /\ NoDup (map fst ps').

Definition effect (max : nat) (c : call) (s : state) (r : answer) (s' : state) : Prop :=
  match c with
  | ValueNew => r = AAddr (next s) /\ s' = get_fresh (next s) (add undefined s)
  | ValueNew1 => r = AAddr (next s) /\ s' = hold (next s) (add undefined s)
  | ObjNew => r = AAddr (next s) /\ s' = get_fresh (next s) (add (BObject [] [] None false) s)
  | Incr a => r = ANone /\ s' = settle a (hold a s)
  | Decr a => r = ANone /\ s' = release a s
  | MakePlain v n => r = ANone /\ s' = assign v (BValue (PPlain n)) s
  | MakeObject v o => r = ANone /\ s' = settle o (assign v (BValue (PObject o)) s)
  | MakeVariable v x => r = ANone /\ s' = settle x (assign v (BValue (PVariable x)) s)
  | Copy t f => r = ANone /\ exists p, value_of s f p /\ s' = assign t (BValue p) s
  | Move t f => r = ANone /\ exists p, value_of s f p /\
      s' = if Nat.eqb t f then s else assign f undefined (assign t (BValue p) s)
  | Dup v => r = AAddr (next s) /\ exists p, value_of s v p /\ s' = hold (next s) (add (BValue p) s)
  | ArrayAdd o v => exists ps es pr w, object s o ps es pr w /\
      (r = ABool true /\ s' = settle v (assign o (BObject ps (es ++ [Some v]) pr w) s) \/
       r = ABool false /\ s' = s /\ (max <= length es + 17)%nat)      (* the array is too big *)
  | ArraySet o v n => exists ps es pr w, object s o ps es pr w /\
      (r = ABool true /\ (exists es', with_element n v es es' /\
          s' = settle v (assign o (BObject ps es' pr w) s)) \/
       r = ABool false /\ s' = s /\ (max <= n + 17)%nat)
  | Insert o k v => r = ANone /\ exists ps es pr w ps', object s o ps es pr w /\ with_property k v ps ps' /\
      s' = settle v (assign o (BObject ps' es pr w) s)
  | Delete o k => r = ANone /\ exists ps es pr w ps', object s o ps es pr w /\ without_property k ps ps' /\
      s' = assign o (BObject ps' es pr w) s
  | SetProto o p => r = ANone /\ exists ps es pr w, object s o ps es pr w /\
      s' = settle p (assign o (BObject ps es (Some p) true) s)
  | SetPrototypeOf v a => r = ANone /\ exists ov oa ps es pr w aps aes apr aw,
      value_of s v (PObject ov) /\ value_of s a (PObject oa) /\
      object s ov ps es pr w /\ object s oa aps aes apr aw /\
      (aps <> [] /\ oa <> ov /\
         s' = assign ov (BObject ps es (Some (next s)) true) (add (BValue (PObject oa)) s) \/
       (aps = [] \/ oa = ov) /\ s' = assign ov (BObject ps es apr w) s)
  | Replace a b => r = ANone /\ s' = settle b (hold b (release a s))
  | IsShared v => r = ABool (1 <? holders s v) /\ s' = s
  end.
Definition step (max : nat) (c : call) (s : state) (r : answer) (s' : state) : Prop :=
  exists s1, effect max c s r s1 /\ swept s1 s'.

(** The rules a program must keep.  [kept s ts a]: [a] stays alive whatever the cells [t] refer
    to (for [t] in [ts]): the program holds it, or can get to it without going through [ts]. *)
Inductive kept (s : state) (ts : list nat) : nat -> Prop :=
  | kept_held a : In a (held s) -> kept s ts a
  | kept_ref w a : ~ In w ts -> In w (fresh s) \/ kept s ts w -> refers s w a -> kept s ts a.
Definition kept_or_fresh (s : state) (t : list nat) (a : nat) : Prop := In a (fresh s) \/ kept s t a.
Definition room (s : state) (a : nat) : Prop := holders s a < INT_MAX.
Definition payload_room (s : state) (p : payload) : Prop := forall a, In a (out (BValue p)) -> room s a.
Definition is_object (s : state) (a : nat) : Prop := exists ps es pr w, object s a ps es pr w.

Definition allowed (c : call) (s : state) : Prop :=
  match c with
  | ValueNew | ValueNew1 | ObjNew => True
  | Incr a => reachable s a /\ room s a
  | Decr a => In a (held s)
  | MakePlain v _ => is_value s v /\ kept_or_fresh s [v] v
  | MakeObject v o => is_value s v /\ kept_or_fresh s [v] v /\ is_object s o /\ room s o /\
      (kept_or_fresh s [v] o \/ value_of s v (PObject o))
  | MakeVariable v x => is_value s v /\ kept_or_fresh s [v] v /\ reachable s x /\ room s x /\
      v <> x /\ ~ value_of s v (PVariable x)
  | Copy t f => is_value s t /\ kept s [t] t /\ (kept s [t] f \/ value_of s t (PVariable f)) /\
      (exists p, value_of s f p /\ payload_room s p) /\ (t <> f -> ~ refers s f t) /\
      forall x, value_of s t (PVariable x) -> room s x
  | Move t f => is_value s t /\ is_value s f /\ kept s [t; f] t /\ kept s [t; f] f /\ ~ refers s f t /\
      forall x, value_of s t (PVariable x) -> room s x
  | Dup v => reachable s v /\ ~ In v (fresh s) /\ exists p, value_of s v p /\ payload_room s p
  | ArrayAdd o v => is_object s o /\ reachable s o /\ reachable s v /\ room s v
  | ArraySet o v _ => is_object s o /\ kept_or_fresh s [o] o /\ kept_or_fresh s [o] v /\ room s v
  | Insert o _ v => is_object s o /\ kept_or_fresh s [o] o /\ kept_or_fresh s [o] v /\ room s v
  | Delete o _ => is_object s o /\ kept_or_fresh s [o] o
  | SetProto o p => is_object s o /\ reachable s o /\ reachable s p /\ room s p /\
      forall ps es pr w, object s o ps es pr w -> w = false
  | SetPrototypeOf v a => reachable s v /\ reachable s a /\ ~ In a (fresh s) /\
      exists ov oa, value_of s v (PObject ov) /\ value_of s a (PObject oa) /\ room s oa /\
        is_object s oa /\ exists ps es pr, object s ov ps es pr false
  | Replace a b => In a (held s) /\ (a = b \/ kept_or_fresh (release a s) [] b) /\ room s b
  | IsShared v => reachable s v
  end.

(** A program that keeps the rules all the way, whatever the outcomes are. *)
Fixpoint keeps_rules (max : nat) (cs : list call) (s : state) : Prop :=
  match cs with
  | [] => True
  | c :: r => allowed c s /\ forall a s', step max c s a s' -> keeps_rules max r s'
  end.
Fixpoint steps (max : nat) (cs : list call) (s : state) (rs : list answer) (s' : state) : Prop :=
  match cs, rs with
  | [], [] => s' = s
  | c :: r, a :: rs => exists s1, step max c s a s1 /\ steps max r s1 rs s'
  | _, _ => False
  end.
Definition start : state := mkS [] [] [].
