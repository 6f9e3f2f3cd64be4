(** What the list API is for: named sequences of entries, an entry being in at most one of them. *)
From Coq Require Import ZArith List Bool.
Import ListNotations.
From Verif Require Import ListModel.
Local Open Scope Z_scope.

(** The sequences that exist, the live entries with their values, and for every live entry the
    list it is in, or was last in. *)
Record state (V : Type) := mkS { seq : Z -> option (list Z); value : Z -> option V; home : Z -> Z;
  (** the front entry was put there (and did not become the front by the removal of another) *)
  placed : Z -> bool }.
Arguments seq {V}. Arguments value {V}. Arguments home {V}. Arguments placed {V}. Arguments mkS {V}.

Definition set {A} (k : Z) (v : A) (f : Z -> A) : Z -> A := fun x => if x =? k then v else f x.
Definition without (a : Z) (q : list Z) : list Z := filter (fun x => negb (x =? a)) q.
(** [a] put just before [b], or at the end. *)
Fixpoint insert_before (a b : Z) (q : list Z) : list Z :=
  match q with [] => [] | x :: r => if x =? b then a :: x :: r else x :: insert_before a b r end.
Definition place (a : Z) (before : option Z) (q : list Z) : list Z :=
  match before with None => q ++ [a] | Some b => insert_before a b q end.
Definition last_of (q : list Z) : option Z := match rev q with [] => None | x :: _ => Some x end.
Definition is_front (a : Z) (q : list Z) : bool := match q with x :: _ => x =? a | [] => false end.

Section S.
Variable V : Type.
Implicit Types s : state V.
Definition contents s l : list Z := match seq s l with Some q => q | None => [] end.

(** Take [a] out of list [l]. *)
Definition take_out (l a : Z) s : state V :=
  mkS (set l (Some (without a (contents s l))) (seq s)) (value s) (home s)
      (if is_front a (contents s l) then set l false (placed s) else placed s).
(** Put [a], which is in no list, into [l]. *)
Definition put_in (l a : Z) (before : option Z) s : state V :=
  mkS (set l (Some (place a before (contents s l))) (seq s)) (value s) (set a l (home s))
      (if is_front a (place a before (contents s l)) then set l true (placed s) else placed s).
Definition member s a : Prop := In a (contents s (home s a)).
Definition memberb s a : bool := existsb (Z.eqb a) (contents s (home s a)).
Definition leave (a : Z) s : state V := if memberb s a then take_out (home s a) a s else s.
Definition forget (a : Z) s : state V := mkS (seq s) (set a None (value s)) (home s) (placed s).
Definition forget_all (q : list Z) s : state V := fold_right forget s q.

Definition after (c : call V) s : state V :=
  match c with
  | ListNew _ l => mkS (set l (Some []) (seq s)) (value s) (home s) (set l false (placed s))
  | EntryNew _ a l v b => put_in l a b (mkS (seq s) (set a (Some v) (value s)) (home s) (placed s))
  | Push _ l a b => put_in l a b (leave a s)
  | Pop _ l a => take_out l a s
  | EntryDelete _ a => forget a (leave a s)
  | Clear _ l => let s1 := forget_all (contents s l) s in mkS (set l (Some []) (seq s1)) (value s1) (home s1) (placed s1)
  | ListDelete _ l => let s1 := forget_all (contents s l) s in mkS (set l None (seq s1)) (value s1) (home s1) (placed s1)
  | ValueSet _ a v => mkS (seq s) (set a (Some v) (value s)) (home s) (placed s)
  | _ => s
  end.
Definition answers (c : call V) s (r : answer V) : Prop :=
  match c with
  | Size _ l => r = ANum _ (Z.of_nat (length (contents s l)) mod 2 ^ 32)   (* a 32-bit number *)
  | Front _ l => r = AEntry _ (hd_error (contents s l))
  | Back _ l => r = AEntry _ (last_of (contents s l))
  | ValueGet _ a => exists v, value s a = Some v /\ r = AVal _ v
  | _ => r = AUnit _
  end.

(** How the API is meant to be used: no dead pointers, an insertion position in the right list,
    popping from the right list.  What goes beyond that (and is needed, see the refuted theorems):
    Jsi_ListEntryDelete is not applied to the only entry of a list, Jsi_ListGetBack not to an
    empty list, and an entry is not pushed after the list it was last in is gone. *)
Definition legal (c : call V) s : Prop :=
  match c with
  | ListNew _ l => seq s l = None
  | EntryNew _ a l v b =>
      value s a = None /\ seq s l <> None /\ match b with Some x => In x (contents s l) | None => True end
  | Push _ l a b =>
      value s a <> None /\ seq s l <> None /\
      match b with Some x => In x (contents s l) /\ x <> a | None => True end /\ seq s (home s a) <> None
  | Pop _ l a => In a (contents s l)
  | EntryDelete _ a => value s a <> None /\ (member s a -> contents s (home s a) <> [a])
  | Clear _ l | ListDelete _ l | Size _ l | Front _ l => seq s l <> None
  | Back _ l => contents s l <> []
  | ValueSet _ a _ | ValueGet _ a => value s a <> None
  end.
Definition start : state V := mkS (fun _ => None) (fun _ => None) (fun _ => 0) (fun _ => false).
(** A history, the answers it must give, and the state it must lead to. *)
Inductive history : list (call V) -> list (answer V) -> state V -> state V -> Prop :=
| h_nil : forall s, history [] [] s s
| h_cons : forall c cs r rs s s', legal c s -> answers c s r ->
    history cs rs (after c s) s' -> history (c :: cs) (r :: rs) s s'.
End S.
