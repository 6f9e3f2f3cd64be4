(** What a pattern means, independently of any automaton. *)
From Coq Require Import ZArith List Bool Lia.
From Verif Require Import NfaModel.
Import ListNotations.
Open Scope Z_scope.

(** The character at index i of the text, if there is one. *)
Definition char_at (txt : list Z) (i : nat) : option Z := nth_error txt i.

(** The character before index i and the character at index i; 0 stands for none. *)
Definition before (txt : list Z) (i : nat) : Z := match i with O => 0 | S k => nth k txt 0 end.
Definition after (txt : list Z) (i : nat) : Z := nth i txt 0.

Definition word_char (E : env) (c : Z) : Prop := c = 95 \/ alnum E c = true.

(** The places where an assertion holds. A word boundary is also granted at both ends of the text. *)
Definition holds (E : env) (txt : list Z) (a : asr) (i : nat) : Prop :=
  let p := before txt i in let n := after txt i in
  match a with
  | Bol => (i = O /\ notbol E = false) \/ (p = 10 /\ newline E = true)
  | Eol => (n = 0 /\ noteol E = false) \/ (n = 10 /\ newline E = true)
  | Bow => ~ word_char E p /\ word_char E n
  | Eow => word_char E p /\ ~ word_char E n
  | Wb => i = O \/ n = 0 \/ ~ (word_char E p <-> word_char E n)
  | NotWb => i <> O /\ n <> 0 /\ (word_char E p <-> word_char E n)
  end.

(** Is the character in the class, in either case if case is ignored? *)
Definition in_class (E : env) (k c : Z) : Prop :=
  if icase E then isct E (upc E c) k = true \/ isct E (lowc E c) k = true else isct E c k = true.

Definition in_item (E : env) (s : item) (c : Z) : Prop :=
  i_lo s <= c <= i_hi s /\ (i_cls s <> 0 -> in_class E (i_cls s) c)
  /\ forall k, In k (i_neg s) -> ~ in_class E k c.

(** n matches of R, one after the other. *)
Fixpoint times (R : nat -> nat -> Prop) (n : nat) (i j : nat) : Prop :=
  match n with
  | O => i = j
  | S n' => exists k, R i k /\ times R n' k j
  end.

(** Pattern p matches the text from index i to index j. *)
Fixpoint matches (E : env) (txt : list Z) (p : pat) (i j : nat) : Prop :=
  match p with
  | PEmpty => i = j
  | PAt a => i = j /\ holds E txt a i
  | PSet s ss => j = S i /\ exists c x, char_at txt i = Some c /\ In x (s :: ss) /\ in_item E x c
  | PCat x y => exists k, matches E txt x i k /\ matches E txt y k j
  | PAlt x y => matches E txt x i j \/ matches E txt y i j
  | PRep mn mx x =>
      exists n, times (matches E txt x) n i j /\ mn <= Z.of_nat n /\ (mx = -1 \/ Z.of_nat n <= mx)
  end.

(** Some piece of the text matches. *)
Definition found (E : env) (txt : list Z) (p : pat) : Prop :=
  exists i j, (i <= j <= length txt)%nat /\ matches E txt p i j.

(** ** Which patterns the theorems speak about *)

(** A repetition count as the parser lets through, {0} apart. *)
Definition count_ok (mn mx : Z) : Prop := 0 <= mn /\ ((mx = -1) \/ (mn <= mx /\ 1 <= mx)).

Fixpoint counts (p : pat) : Prop :=
  match p with
  | PEmpty | PAt _ | PSet _ _ => True
  | PCat x y | PAlt x y => counts x /\ counts y
  | PRep mn mx x => count_ok mn mx /\ counts x
  end.

(** A repetition that is written out: a count other than *, +, ? and {1}. *)
Definition bounded (mn mx : Z) : Prop := 1 < mn \/ 1 < mx.

Fixpoint no_bounded (p : pat) : Prop :=
  match p with
  | PEmpty | PAt _ | PSet _ _ => True
  | PCat x y | PAlt x y => no_bounded x /\ no_bounded y
  | PRep mn mx x => ~ bounded mn mx /\ no_bounded x
  end.

(** A bounded repetition has at most one repetition around it. *)
Fixpoint one_deep (p : pat) : Prop :=
  match p with
  | PEmpty | PAt _ | PSet _ _ => True
  | PCat x y | PAlt x y => one_deep x /\ one_deep y
  | PRep mn mx x => no_bounded x
  end.

Fixpoint shallow (p : pat) : Prop :=
  match p with
  | PEmpty | PAt _ | PSet _ _ => True
  | PCat x y | PAlt x y => shallow x /\ shallow y
  | PRep _ _ x => one_deep x
  end.

(** No character class at all. *)
Fixpoint no_class (p : pat) : Prop :=
  match p with
  | PEmpty | PAt _ => True
  | PSet s ss => forall x, In x (s :: ss) -> i_cls x = 0 /\ i_neg x = []
  | PCat x y | PAlt x y => no_class x /\ no_class y
  | PRep _ _ x => no_class x
  end.

(** No character class inside a bounded repetition. *)
Fixpoint class_ok (p : pat) : Prop :=
  match p with
  | PEmpty | PAt _ | PSet _ _ => True
  | PCat x y | PAlt x y => class_ok x /\ class_ok y
  | PRep mn mx x => class_ok x /\ (bounded mn mx -> no_class x)
  end.

(** Can the pattern match nothing at all, assertions permitting? Can it do so everywhere? *)
Fixpoint may_be_empty (p : pat) : Prop :=
  match p with
  | PEmpty | PAt _ => True
  | PSet _ _ => False
  | PCat x y => may_be_empty x /\ may_be_empty y
  | PAlt x y => may_be_empty x \/ may_be_empty y
  | PRep mn _ x => mn = 0 \/ may_be_empty x
  end.

Fixpoint no_assertion (p : pat) : Prop :=
  match p with
  | PEmpty | PSet _ _ => True
  | PAt _ => False
  | PCat x y | PAlt x y => no_assertion x /\ no_assertion y
  | PRep _ _ x => no_assertion x
  end.

(** Assertions stand where the engine takes account of them: a repeated part that can be empty holds none,
    and of two alternatives that can both be empty the first holds none. *)
Fixpoint placed (p : pat) : Prop :=
  match p with
  | PEmpty | PAt _ | PSet _ _ => True
  | PCat x y => placed x /\ placed y
  | PAlt x y => placed x /\ placed y /\ (may_be_empty x /\ may_be_empty y -> no_assertion x)
  | PRep _ _ x => placed x /\ (may_be_empty x -> no_assertion x)
  end.

