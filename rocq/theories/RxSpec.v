(** * Specification of replacing and matching with regular expressions *)
From Coq Require Import ZArith List Bool.
Import ListNotations.
Require Import Verif.RxModel.
Local Open Scope Z_scope.

(** What is assumed of the regular expression library: positions are in the text, or -1 for a group that took no
    part. *)
Definition in_text (s : list Z) (r : Z * Z) : Prop := 0 <= fst r /\ fst r <= snd r /\ snd r <= Z.of_nat (length s).
Definition sound (rx : engine) : Prop := forall nb s pos, rx nb s = Match pos ->
  in_text s (pos 0%nat) /\ forall i, pos i = (-1, -1) \/ in_text s (pos i).
(* the expression does not match the empty string *)
Definition never_empty (rx : engine) : Prop := forall nb s pos, rx nb s = Match pos -> fst (pos 0%nat) < snd (pos 0%nat).
Definition no_errors (rx : engine) : Prop := forall nb s, rx nb s <> Bad.
(* it has no groups *)
Definition no_groups (rx : engine) : Prop := forall nb s pos i, rx nb s = Match pos -> (0 < i)%nat -> pos i = (-1, -1).

Definition slice (s : list Z) (r : Z * Z) : list Z := firstn (Z.to_nat (snd r - fst r)) (skipn (Z.to_nat (fst r)) s).

(** One match: the text before it (since the last match), the match, the text after it, and the groups *)
Record hit := mkhit { hbefore : list Z; hmatch : list Z; hafter : list Z; hgroup : nat -> option (list Z) }.
Definition hit_of (s : list Z) (pos : nat -> Z * Z) : hit :=
  mkhit (slice s (0, fst (pos 0%nat))) (slice s (pos 0%nat)) (skipn (Z.to_nat (snd (pos 0%nat))) s)
        (fun i => if fst (pos i) <? 0 then None else Some (slice s (pos i))).

(** [successive rx later nb s hs rest]: the matches found one after the other, each in the text after the one before;
    [rest] is what is left when nothing matches.  [later]: is the library told that the text which is left does not start a
    line? *)
Inductive successive (rx : engine) (later : bool) : bool -> list Z -> list hit -> list Z -> Prop :=
| suc_end nb s : rx nb s = NoMatch -> successive rx later nb s [] s
| suc_hit nb s pos hs rest : rx nb s = Match pos ->
    successive rx later later (hafter (hit_of s pos)) hs rest ->
    successive rx later nb s (hit_of s pos :: hs) rest.

(** ** Replacement strings *)
Inductive item := Lit (c : Z) | Group (n : nat) | After | Before.
Inductive template : list Z -> list item -> Prop :=
| t_end : template [] []
| t_char c r l : c <> 36 -> template r l -> template (c :: r) (Lit c :: l)
| t_dollar r l : template r l -> template (36 :: 36 :: r) (Lit 36 :: l)              (* $$ *)
| t_group n r l : (n < 10)%nat -> template r l -> template (36 :: (48 + Z.of_nat n) :: r) (Group n :: l)
| t_whole r l : template r l -> template (36 :: 38 :: r) (Group 0 :: l)               (* $& *)
| t_after r l : template r l -> template (36 :: 39 :: r) (After :: l)                 (* $' *)
| t_before r l : template r l -> template (36 :: 96 :: r) (Before :: l)               (* $` *)
| t_other c r l : ~ (48 <= c <= 57) -> ~ In c [36; 38; 39; 96] -> template r l ->
    template (36 :: c :: r) (Lit 36 :: Lit c :: l).
Definition item_text (h : hit) (i : item) : list Z :=
  match i with
  | Lit c => [c]
  | Group n => match hgroup h n with Some t => t | None => [] end
  | After => hafter h
  | Before => hbefore h
  end.
Definition filled (l : list item) (h : hit) : list Z := flat_map (item_text h) l.

(** ** Replacement functions: called once for each match, in order, with the match, the groups and where the
    match is *)
Section Calls.
Context {St : Type}.
Fixpoint calls (f : callback St) (nsub : nat) (st : St) (off : Z) (hs : list hit) (rest : list Z) : St * option (list Z) :=
  match hs with
  | [] => (st, Some rest)
  | h :: hs' =>
      match f st (hmatch h) (map (hgroup h) (seq 1 nsub)) (off + Z.of_nat (length (hbefore h))) with
      | (st', None) => (st', None)
      | (st', Some t) =>
          match calls f nsub st' (off + Z.of_nat (length (hbefore h) + length (hmatch h))) hs' rest with
          | (st'', Some r) => (st'', Some (hbefore h ++ t ++ r))
          | (st'', None) => (st'', None)
          end
      end
  end.
End Calls.

(** ** re.exec until it finds nothing *)
Fixpoint exec_all (n : nat) (rx : engine) (shared : Z) (own : option Z) (s : list Z) : option (list (list (list Z))) :=
  match n with
  | O => None
  | S n' => match exec_cmd rx true shared own s with
            | (EArray l, sh, ow) => option_map (cons l) (exec_all n' rx sh ow s)
            | (ENull, _, _) => Some []
            | _ => None
            end
  end.
