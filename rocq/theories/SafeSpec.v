(** What the safe-mode properties (C31, C32, C33) mean: names, file systems, and what the operating
    system does with a path.  Nothing here is taken from jsish. *)
From Coq Require Import ZArith List Bool.
Import ListNotations.
Local Open Scope Z_scope.

Definition path := list Z.

(** *** names in a path *)
(** the pieces of a path between its slashes, empty ones included *)
Fixpoint pieces (s : path) : list path :=
  match s with
  | [] => [[]]
  | c :: r => if c =? 47 then [] :: pieces r
              else match pieces r with p :: q => (c :: p) :: q | [] => [[c]] end
  end.
Definition is_empty (n : path) : bool := match n with [] => true | _ => false end.
(** the names in a path: its non-empty pieces *)
Definition names (s : path) : list path := filter (fun n => negb (is_empty n)) (pieces s).
Definition absolute (s : path) : Prop := exists r, s = 47 :: r.
(** the text of an absolute path with these names *)
Definition text (l : list path) : path := match l with [] => [47] | _ => concat (map (fun n => 47 :: n) l) end.
(** the file (or directory) with names [f] is the directory with names [d] or lies underneath it *)
Definition under (d f : list path) : Prop := exists rest, f = d ++ rest.

Definition is_dot (n : path) : bool := match n with [c] => c =? 46 | _ => false end.
Definition is_dotdot (n : path) : bool := match n with [a; b] => (a =? 46) && (b =? 46) | _ => false end.
(** an ordinary name *)
Definition plain (n : path) : Prop := n <> [] /\ ~ In 47 n /\ n <> [46] /\ n <> [46; 46].

(** *** file systems and path resolution (POSIX path_resolution(7)) *)
Inductive node : Type := NDir | NFile | NLink (target : path).
(** the object with each absolute list of names; the root is always a directory *)
Definition fsys := list path -> option node.
Definition dir_at (fs : fsys) (l : list path) : Prop := l = [] \/ fs l = Some NDir.
Definition dir_atb (fs : fsys) (l : list path) : bool :=
  match l with [] => true | _ => match fs l with Some NDir => true | _ => false end end.

(** Following the names [todo] from the directory [cur]; at most [links] symbolic links are followed
    (the kernel has such a limit). *)
Fixpoint walk (links : nat) (fs : fsys) : list path -> list path -> option (list path) :=
  fix go (cur todo : list path) {struct todo} : option (list path) :=
    match todo with
    | [] => Some cur
    | c :: rest =>
        if is_empty c || is_dot c then go cur rest
        else if is_dotdot c then go (removelast cur) rest
        else match fs (cur ++ [c]) with
             | None => None
             | Some NDir => go (cur ++ [c]) rest
             | Some NFile => match rest with [] => Some (cur ++ [c]) | _ => None end
             | Some (NLink t) =>
                 match links with
                 | O => None
                 | S l => match t with
                          | [] => None
                          | t0 :: _ => walk l fs (if t0 =? 47 then [] else cur) (pieces t ++ rest)
                          end
                 end
             end
    end.
(** the existing object a path denotes for a process whose current directory is [cwd] *)
Definition resolve (links : nat) (fs : fsys) (cwd : list path) (p : path) : option (list path) :=
  match p with
  | [] => None
  | c :: _ => walk links fs (if c =? 47 then [] else cwd) (pieces p)
  end.

(** The new name a creating operation (mkdir, rename, link, open with O_CREAT) on a path makes: the
    directory that the path without its last name denotes, and that last name, which must not exist;
    [follow]: if it exists as a symbolic link to a name that does not exist, that one is made instead
    (open does this). *)
Fixpoint drop_empty (l : list path) : list path :=
  match l with [] => [] | n :: r => if is_empty n then drop_empty r else l end.
Fixpoint walk_new (follow : bool) (links : nat) (fs : fsys) (cur todo : list path) : option (list path) :=
  match drop_empty (rev todo) with
  | [] => None
  | leaf :: rpre =>
      if is_dot leaf || is_dotdot leaf then None
      else match walk links fs cur (rev rpre) with
           | None => None
           | Some d =>
               if dir_atb fs d then
                 match fs (d ++ [leaf]) with
                 | None => Some (d ++ [leaf])
                 | Some (NLink t) =>
                     match follow, links, t with
                     | true, S l, t0 :: _ => walk_new follow l fs (if t0 =? 47 then [] else d) (pieces t)
                     | _, _, _ => None
                     end
                 | Some _ => None
                 end
               else None
           end
  end.
Definition creates (follow : bool) (links : nat) (fs : fsys) (cwd : list path) (p : path) : option (list path) :=
  match p with
  | [] => None
  | c :: _ => walk_new follow links fs (if c =? 47 then [] else cwd) (pieces p)
  end.

(** realpath(3): the text of the names of an existing object *)
Definition realpath (links : nat) (fs : fsys) (cwd : list path) (p : path) : option path :=
  option_map text (resolve links fs cwd p).

(** *** purely textual resolution of '.' and '..' *)
Fixpoint lexical (acc todo : list path) : list path :=
  match todo with
  | [] => acc
  | c :: rest => if is_empty c || is_dot c then lexical acc rest
                 else if is_dotdot c then lexical (removelast acc) rest
                 else lexical (acc ++ [c]) rest
  end.
(** no '..' is met when exactly one name has been collected *)
Fixpoint dotdot_ok (acc todo : list path) : Prop :=
  match todo with
  | [] => True
  | c :: rest => if is_empty c || is_dot c then dotdot_ok acc rest
                 else if is_dotdot c then length acc <> 1%nat /\ dotdot_ok (removelast acc) rest
                 else dotdot_ok (acc ++ [c]) rest
  end.
