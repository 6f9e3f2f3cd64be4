(** * Specification of the format command: what a format string says
    A format string is a sequence of pieces; [spells] says how a piece is written, [meaning] what it
    produces. *)
From Coq Require Import ZArith List Bool.
Import ListNotations.
Require Import Verif.UtfSpec Verif.MiscSpec Verif.MiscModel Verif.FmtModel.
Local Open Scope Z_scope.

Inductive width := NoWidth | Width (n : Z) | ArgWidth.
Inductive prec := NoPrec | Dot | Prec (n : Z) | ArgPrec.
Record field := mkfield { fflags : list Z; fwidth : width; fprec : prec; fmod : list Z; fconv : Z }.
Inductive piece := Text (cs : list Z) | Percent | Field (f : field).

(** ** How it is written *)
Definition flag_char (c : Z) : Prop := In c [45; 48; 32; 43; 35; 39].      (* - 0 space + # ' *)
Definition decimal (n : Z) : list Z := print_d n.
Inductive spells_width : width -> list Z -> Prop :=
| sw_no : spells_width NoWidth []
| sw_num n s : numeral 10 s n -> hd 0 s <> 48 -> n < 2 ^ 63 -> spells_width (Width n) s
| sw_arg : spells_width ArgWidth [42].
Inductive spells_prec : prec -> list Z -> Prop :=
| sp_no : spells_prec NoPrec []
| sp_dot : spells_prec Dot [46]
| sp_num n s : numeral 10 s n -> n < 2 ^ 63 -> spells_prec (Prec n) (46 :: s)
| sp_arg : spells_prec ArgPrec [46; 42].
(* an ASCII character that cannot be part of what comes before it *)
Definition conv_char (c : Z) : Prop :=
  0 < c < 128 /\ ~ flag_char c /\ ~ (48 <= c <= 57) /\ ~ In c [46; 42; 104; 108; 37].
Inductive spells : piece -> list Z -> Prop :=
| spells_text cs : Forall (fun c => codepoint c /\ c <> 37) cs -> spells (Text cs) (flat_map utf8 cs)
| spells_percent : spells Percent [37; 37]
| spells_field f w p : Forall flag_char (fflags f) -> spells_width (fwidth f) w -> spells_prec (fprec f) p ->
    In (fmod f) [[]; [104]; [108]; [108; 108]] -> conv_char (fconv f) ->
    spells (Field f) (37 :: fflags f ++ w ++ p ++ fmod f ++ [fconv f]).
Inductive spells_all : list piece -> list Z -> Prop :=
| spells_none : spells_all [] []
| spells_more p ps s r : spells p s -> spells_all ps r -> spells_all (p :: ps) (s ++ r).

(** ** What it produces *)
Section Meaning.
Context {FS : fsys}.
Notation A := (arg (num FS) (other FS)).

(* width and precision, perhaps taken from the arguments; a width from an argument may be negative *)
Definition width_of (w : width) (args : list A) : option (Z * list A) :=
  match w with
  | NoWidth => Some (0, args)
  | Width n => Some (n, args)
  | ArgWidth => match args with ANum n :: r => Some (wide FS n, r) | _ => None end
  end.
Definition prec_of (p : prec) (args : list A) : option (option Z * list A) :=
  match p with
  | NoPrec => Some (None, args)
  | Dot => Some (Some 0, args)
  | Prec n => Some (Some n, args)
  | ArgPrec => match args with ANum n :: r => Some (Some (Z.max 0 (wide FS n)), r) | _ => None end
  end.

Definition floats : list Z := [97; 65; 101; 69; 102; 103; 71].     (* a A e E f g G *)
Definition integers : list Z := [100; 105; 117; 111; 120; 88].     (* d i u o x X *)
Definition is_in (c : Z) (l : list Z) : bool := existsb (Z.eqb c) l.

(* the directive given to printf *)
Definition printf_directive (flags : list Z) (w : Z) (p : option Z) (c : Z) : list Z :=
  37 :: flags ++ (if w =? 0 then [] else decimal w) ++ match p with Some p => 46 :: decimal p | None => [] end ++
  (if is_in c floats then [c] else [108; 108; if c =? 105 then 100 else c]).

Definition left_aligned (f : field) (w : Z) : bool := is_in 45 (fflags f) || (w <? 0).
(* the text of a field before padding; strings are cut to [p] bytes *)
Definition text_of (f : field) (w : Z) (p : option Z) (v : A) : option (list Z) :=
  let c := fconv f in
  let shorten t := Some match p with Some p => firstn (Z.to_nat p) t | None => t end in
  if c =? 115 then match v with AStr s => shorten s | _ => None end
  else if c =? 83 then shorten (disp FS v)
  else if c =? 113 then shorten match v with AStr _ => disp FS v | _ => json FS v end
  else if (c =? 99) || (c =? 67) then
    match v with
    | AStr s => if (length s =? 1)%nat then Some s else None
    | ANum n => if (0 <=? wide FS n) && (wide FS n <=? 255)
                then Some (if c =? 67 then utf8 (wide FS n) else [wide FS n]) else None
    | AOther _ => None
    end
  else if is_in c floats || is_in c integers then
    match v with
    | ANum n => Some (printf FS (printf_directive (fflags f ++ if (w <? 0) && negb (is_in 45 (fflags f)) then [45] else [])
                                                  (Z.abs w) p c) n)
    | _ => None
    end
  else None.
(* padding with spaces, or zeros if 0 is among the flags, to [w] bytes; %C counts as one *)
Definition pad_to (f : field) (w : Z) (t : list Z) : list Z :=
  let have := if fconv f =? 67 then 1 else Z.of_nat (length t) in
  let fill := repeat (if is_in 48 (fflags f) then 48 else 32) (Z.to_nat (Z.abs w - have)) in
  if left_aligned f w then t ++ fill else fill ++ t.

Definition field_value (f : field) (args : list A) : option (list Z * list A) :=
  match width_of (fwidth f) args with
  | None => None
  | Some (w, args1) =>
      match prec_of (fprec f) args1 with
      | None => None
      | Some (p, []) => None
      | Some (p, v :: rest) => match text_of f w p v with Some t => Some (pad_to f w t, rest) | None => None end
      end
  end.
(* None: an error *)
Fixpoint meaning (ps : list piece) (args : list A) : option (list Z) :=
  match ps with
  | [] => Some []
  | Text cs :: r => option_map (app (flat_map utf8 cs)) (meaning r args)
  | Percent :: r => option_map (cons 37) (meaning r args)
  | Field f :: r => match field_value f args with
                    | Some (t, rest) => option_map (app t) (meaning r rest)
                    | None => None
                    end
  end.

(** ** Sizes: at most 70 flags, and widths and precisions below 2^30, as far as the format is carried out *)
Definition small_field (f : field) (args : list A) : Prop :=
  (length (fflags f) <= 70)%nat /\
  forall w args1, width_of (fwidth f) args = Some (w, args1) -> Z.abs w < 2 ^ 30 /\
    forall p args2, prec_of (fprec f) args1 = Some (Some p, args2) -> p < 2 ^ 30.
Fixpoint small (ps : list piece) (args : list A) : Prop :=
  match ps with
  | [] => True
  | Field f :: r => small_field f args /\ forall t rest, field_value f args = Some (t, rest) -> small r rest
  | _ :: r => small r args
  end.
End Meaning.
(* printf prints a number in at most 24 bytes (320 for a floating point conversion), more only if the width
   or the precision asks for it *)
Definition printf_brief (FS : fsys) : Prop := forall flags w p c n,
  Forall flag_char flags -> 0 <= w -> (forall p', p = Some p' -> 0 <= p') -> In c (floats ++ integers) ->
  Z.of_nat (length (printf FS (printf_directive flags w p c) n)) <=
  Z.max w (if is_in c floats then 320 else 24) + match p with Some p => p | None => 0 end.
