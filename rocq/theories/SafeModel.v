(** Model of safe-mode file access (src/jsiInterp.c Jsi_InterpAccess, src/jsiFilesys.c
    Jsi_FileRealpathStr / NormalizeUnixPath / Jsi_NormalPath, the guards of src/jsiFileCmds.c) and of the
    confinement of sub-interpreters (src/jsiInterp.c jsi_InterpNew, src/jsiOptions.c Jsi_OptionsProcess).

    Strings are lists of character codes without NUL.  Only the native file system is modelled (no
    virtual file system is mounted), and not the PATH_MAX limit.  *)
From Coq Require Import ZArith List Bool.
From Verif Require Import JsonModel.
Import ListNotations.
Local Open Scope Z_scope.

Definition str := list Z.
Definition slash : Z := 47.
Definition dot : Z := 46.
Definition tilde : Z := 126.
Definition s_dot : str := [46].
Definition s_dotdot : str := [46; 46].

(** Jsi_SplitStr(path, .., "/"), jsiUtils.c:2306-2344: the pieces between the slashes *)
Fixpoint split_slash (s : str) : list str :=
  match s with
  | [] => [[]]
  | c :: r => if c =? slash then [] :: split_slash r
              else match split_slash r with p :: q => (c :: p) :: q | [] => [[c]] end
  end.

(** Jsi_Strncmp(pre, s, strlen(pre)) == 0 *)
Fixpoint prefix (pre s : str) : bool :=
  match pre, s with
  | [], _ => true
  | a :: p, b :: q => (a =? b) && prefix p q
  | _, _ => false
  end.
(** Jsi_Strstr(s, pat) != NULL *)
Fixpoint contains (pat s : str) : bool :=
  prefix pat s || match s with [] => false | _ :: r => contains pat r end.
(** Jsi_Strrchr(s, '/') - s, if there is one *)
Fixpoint last_slash (s : str) : option nat :=
  match s with
  | [] => None
  | c :: r => match last_slash r with
              | Some i => Some (S i)
              | None => if c =? slash then Some 0%nat else None
              end
  end.

(** the '..' case of NormalizeUnixPath, jsiFilesys.c:1339-1346 *)
Definition pop (d : str) : str :=
  match last_slash d with Some (S i) => firstn (S i) d | _ => d end.

(** the loop of NormalizeUnixPath, jsiFilesys.c:1332-1350; [first] is i == 0 *)
Fixpoint norm_loop (first : bool) (argv : list str) (d : str) : str :=
  match argv with
  | [] => d
  | a :: r =>
      if eqb_list a [] then norm_loop false r d
      else if negb first && eqb_list a s_dot then norm_loop false r d
      else if eqb_list a s_dotdot then norm_loop false r (pop d)
      else norm_loop false r (d ++ (if first then [] else [slash]) ++ a)
  end.

(** NormalizeUnixPath, jsiFilesys.c:1318-1355, as its caller sees the buffer afterwards.  For a relative
    path with '..' the function works on a copy of the current directory with the path appended, and
    writes its result over that copy: the caller's buffer is not changed. *)
Definition normalize_unix (cwd path : str) : str :=
  if negb (contains [46; 47] path) then path
  else if negb (hd 0 path =? slash) && contains s_dotdot path && negb (eqb_list cwd [slash]) then path
  else norm_loop true (split_slash path) [].

(** What Jsi_FileRealpathStr takes from the operating system: the current directory, the home directory
    and realpath(3). *)
Record env : Type := { cwd : str; home : str; rp : str -> option str }.

(** Jsi_FileRealpathStr, jsiFilesys.c:1373-1426 *)
Definition file_realpath (e : env) (path : str) : option str :=
  match path with
  | [] => None
  | c0 :: rest =>
      let c1 := hd 0 rest in
      let npath := if c0 =? tilde then home e ++ (if c1 =? slash then [] else [slash]) ++ rest else path in
      match rp e npath with
      | Some a => Some a
      | None =>
          if negb (c0 =? tilde) &&
             (((c0 =? dot) && (c1 =? slash)) ||
              (negb (c0 =? slash) && negb ((c0 =? dot) && (c1 =? dot)) && negb (c1 =? 58)))
          then let npath' := cwd e ++ [slash] ++ path in
               match rp e npath' with
               | Some a => Some a
               | None => Some (normalize_unix (cwd e) npath')
               end
          else Some (normalize_unix (cwd e) npath)
      end
  end.

(** jsi_safe_mode, jsiInt.h:1087-1093 *)
Inductive safe_mode : Type := SNone | SRead | SWrite | SWriteRead | SLockdown.

(** The fields of Jsi_Interp (jsiInt.h:1095-1180) that matter for confinement.  A directory list is
    None when the field is NULL; its elements are None when they are not strings. *)
Record interp : Type := {
  isSafe : bool; startSafe : bool; safeMode : safe_mode;
  readDirs : option (list (option str)); writeDirs : option (list (option str));
  execPattern : option str;
  maxDepth : Z; maxArrayList : Z; maxIncDepth : Z; maxInterpDepth : Z; maxUserObjs : Z; maxOpCnt : Z; memLeakCnt : Z;
  interpDepth : Z;
  noLoad : bool; noNetwork : bool; noStderr : bool; noSubInterps : bool; subthread : bool;
  lockDown : option str }.

(** one iteration of the loop of Jsi_InterpAccess, jsiInterp.c:2986-2998 *)
Definition dir_allows (dstr d : str) : bool :=
  if eqb_list d [] then false
  else if eqb_list d dstr then true
  else if negb (prefix d dstr) then false
  else if Nat.ltb 1 (length d) && (last d 0 =? slash) then true
  else nth (length d) dstr 0 =? slash.

Inductive aflag : Type := AREAD | AWRITE | ACREATE.

(** Jsi_InterpAccess, jsiInterp.c:2955-3000 (the READ, WRITE and CREATE cases) *)
Definition access (e : env) (ip : interp) (path : str) (a : aflag) : bool :=
  match a with
  | ACREATE => negb (isSafe ip && match safeMode ip with SLockdown => true | _ => false end)
  | _ =>
      if negb (isSafe ip) then true
      else match (match a with AWRITE => writeDirs ip | _ => readDirs ip end) with
           | None => false
           | Some dirs =>
               match file_realpath e path with
               | None => false
               | Some dstr => existsb (fun od => match od with None => false | Some d => dir_allows dstr d end) dirs
               end
           end
  end.

(** SAFEACCESS(fname, writ, create), jsiFileCmds.c:50-53: true when the command goes on *)
Definition safeaccess (e : env) (ip : interp) (path : str) (writ create : bool) : bool :=
  negb (isSafe ip && (negb (access e ip path (if writ then AWRITE else AREAD)) ||
                      (create && negb (access e ip path ACREATE)))).

(** The file commands of jsiFileCmds.c and what they do to the file system once past their guards. *)
Inductive fcmd : Type :=
| FStat (p : str)            (* jsi_FileStatCmd 103-107 *)
| FMkdir (p : str)           (* FileMkdirCmd 286-318, without force *)
| FTempfile (p : str)        (* FileTempfileCmd 321-346; the template *)
| FTruncate (p : str)        (* FileTruncateCmd 369-387 *)
| FMknod (p : str)           (* FileMknodCmd 389-410 *)
| FChmod (p : str)           (* FileChmodCmd 412-424 *)
| FRead (p : str)            (* FileReadCmd 441-463 *)
| FWrite (p : str)           (* FileWriteCmd 465-493 *)
| FRename (s d : str)        (* FileRenameCmd 495-518 *)
| FCopy (s d : str)          (* FileCopyCmd 558-580 *)
| FLink (s d : str)          (* FileLinkCmd 585-603 *)
| FRemove (p : str)          (* FileRemoveCmd 650-686 *)
| FReadlink (p : str)        (* FileReadlinkCmd 688-706 *)
| FSize (p : str)            (* FileSizeCmd 859-875 *)
| FChdir (p : str)           (* FileChdirCmd 274-284, guard in Jsi_Chdir, jsiFilesys.c:623 *)
| FGlob (p : str).           (* FileGlobCmd 1193-1330 with dir:p; SubGlobsDirectory 916-1180 has no guard *)

(** reading data or meta-data of a file, changing an existing file, creating a new name *)
Inductive effect : Type := EInspect (p : str) | EModify (p : str) | ECreate (p : str).

Definition effects (c : fcmd) : list effect :=
  match c with
  | FStat p | FRead p | FReadlink p | FSize p | FChdir p | FGlob p => [EInspect p]
  | FMkdir p | FTempfile p | FMknod p => [ECreate p]
  | FTruncate p | FChmod p | FRemove p => [EModify p]
  | FWrite p => [EModify p; ECreate p]
  | FRename s d => [EModify s; EModify d; ECreate d]
  | FCopy s d => [EInspect s; EModify d; ECreate d]
  | FLink s d => [EModify s; ECreate d]
  end.

(** the 'disabled by safe mode' test at the start of a command (289, 372, 392, 415, 468, 498, 521, 653) *)
Definition disabled (ip : interp) : bool :=
  isSafe ip && match safeMode ip with SLockdown => true | _ => false end.

(** which commands have that test; FileCopy has it, FileLinkCmd and FileTempfileCmd have not *)
Definition lockdown_test (c : fcmd) : bool :=
  match c with
  | FMkdir _ | FTruncate _ | FMknod _ | FChmod _ | FWrite _ | FRename _ _ | FCopy _ _ | FRemove _ => true
  | _ => false
  end.

(** the SAFEACCESS lines of each command *)
Definition guard (e : env) (ip : interp) (c : fcmd) : bool :=
  match c with
  | FStat p | FRead p | FReadlink p | FSize p | FChdir p => safeaccess e ip p false false
  | FGlob p => true
  | FMkdir p | FTempfile p | FMknod p | FWrite p => safeaccess e ip p true true
  | FTruncate p | FChmod p | FRemove p => safeaccess e ip p true false
  | FRename s d | FLink s d => safeaccess e ip s true false && safeaccess e ip d true true
  | FCopy s d => safeaccess e ip s false false && safeaccess e ip d true true
  end.

(** the effects a command has on the file system: none when it is refused.  Simplification: the order of
    the two tests (which only selects the error message) is the same for all commands, and Jsi_Open's own
    check, which repeats the same test, is left out. *)
Definition run_cmd (e : env) (ip : interp) (c : fcmd) : list effect :=
  if lockdown_test c && disabled ip then []
  else if guard e ip c then effects c else [].

(** ** Path normalisation by File.normalize: Jsi_NormalPath, jsiFilesys.c:1205-1298 *)

(** the path the loops work on (1209-1230); no virtual file system, so jsiIntData.pwd is NULL *)
Definition np_start (e : env) (path : str) : str :=
  match path with
  | [] => []
  | c :: r => if c =? slash then path
              else if c =? tilde then home e ++ (if hd 0 r =? slash then [] else [slash]) ++ r
              else if eqb_list path s_dot then cwd e
              else cwd e ++ [slash] ++ path
  end.

(** skipping one component (1253-1258): (component, rest of the text) *)
Fixpoint upto_slash (s : str) : str * str :=
  match s with
  | [] => ([], [])
  | c :: r => if c =? slash then ([], s) else let '(a, b) := upto_slash r in (c :: a, b)
  end.
(** skipping slashes (1245-1249): rest and whether two came together *)
Fixpoint skip_slashes (s : str) : str * bool :=
  match s with
  | c :: r => if c =? slash
              then let '(t, u) := skip_slashes r in (t, u || (hd 0 r =? slash))
              else (s, false)
  | [] => ([], false)
  end.
(** the scanning loop, 1244-1259; fuel: length of the text + 1 *)
Fixpoint np_scan (fuel : nat) (s : str) : list str * bool :=
  match fuel, s with
  | S fuel, _ :: _ =>
      let '(t, u) := skip_slashes s in
      let u' := (hd 0 t =? dot) && ((hd 0 (tl t) =? dot) || (hd 0 (tl t) =? slash)) in
      let '(a, rest) := upto_slash t in
      let '(l, v) := np_scan fuel rest in (a :: l, u || u' || v)
  | _, _ => ([], false)
  end.
(** The second loop (1263-1283) runs from the last component down to the second.  Its test for '..' is
    made on the wrong pointer ([ss], which is at the end of the text), so it compares an empty text with
    '..' and never succeeds; only '.' components are dropped.  The first component is never looked at. *)
Definition np_keep (l : list str) : list str :=
  match l with
  | [] => []
  | a :: r => a :: filter (fun c => negb (eqb_list c s_dot)) r
  end.
(** 1284-1297 *)
Definition normal_path (e : env) (path : str) : option str :=
  match path with
  | [] => None
  | _ => let s := np_start e path in
         let '(l, unclean) := np_scan (S (length s)) s in
         Some (if unclean then concat (map (fun c => if eqb_list c [] then [] else slash :: c) (np_keep l)) else s)
  end.

(** ** Sub-interpreters *)

(** The options of InterpOptions (jsiInterp.c:80-160) that matter here, as given to new Interp(..). *)
Record iopts : Type := {
  o_isSafe : option bool; o_safeMode : option safe_mode;
  o_readDirs : option (list (option str)); o_writeDirs : option (list (option str)); o_execPattern : option str;
  o_maxDepth : option Z; o_maxArrayList : option Z; o_maxIncDepth : option Z; o_maxInterpDepth : option Z;
  o_maxUserObjs : option Z; o_maxOpCnt : option Z; o_memLeakCnt : option Z;
  o_noLoad : option bool; o_noNetwork : option bool; o_noStderr : option bool; o_noSubInterps : option bool;
  o_subthread : option bool; o_lockDown : option str }.

Definition opt {A} (o : option A) (d : A) : A := match o with Some x => x | None => d end.
Definition opt2 {A} (o d : option A) : option A := match o with Some x => Some x | None => d end.

(** Jsi_OptionsProcess, jsiOptions.c:931-1030, on a record of these options: every option given is
    stored, whatever its flags, unless this is an update. *)
Definition options_process (o : iopts) (ip : interp) : interp :=
  {| isSafe := opt (o_isSafe o) (isSafe ip); startSafe := startSafe ip; safeMode := opt (o_safeMode o) (safeMode ip);
     readDirs := opt2 (o_readDirs o) (readDirs ip); writeDirs := opt2 (o_writeDirs o) (writeDirs ip);
     execPattern := opt2 (o_execPattern o) (execPattern ip);
     maxDepth := opt (o_maxDepth o) (maxDepth ip); maxArrayList := opt (o_maxArrayList o) (maxArrayList ip);
     maxIncDepth := opt (o_maxIncDepth o) (maxIncDepth ip); maxInterpDepth := opt (o_maxInterpDepth o) (maxInterpDepth ip);
     maxUserObjs := opt (o_maxUserObjs o) (maxUserObjs ip); maxOpCnt := opt (o_maxOpCnt o) (maxOpCnt ip);
     memLeakCnt := opt (o_memLeakCnt o) (memLeakCnt ip); interpDepth := interpDepth ip;
     noLoad := opt (o_noLoad o) (noLoad ip); noNetwork := opt (o_noNetwork o) (noNetwork ip);
     noStderr := opt (o_noStderr o) (noStderr ip); noSubInterps := opt (o_noSubInterps o) (noSubInterps ip);
     subthread := opt (o_subthread o) (subthread ip); lockDown := opt2 (o_lockDown o) (lockDown ip) |}.

Definition given {A} (o : option A) : bool := match o with Some _ => true | None => false end.

(** Jsi_OptionsConf (jsiOptions.c:1033-1058) on the same options: an update of an INIT_ONLY option is
    refused, and in a safe interpreter one of a LOCKSAFE option (995-1005).  Simplification: the whole
    update is refused at the first such option; in the code the options before it, in key order, are stored. *)
Definition options_conf (o : iopts) (ip : interp) : option interp :=
  if given (o_isSafe o) || given (o_safeMode o) || given (o_readDirs o) || given (o_writeDirs o) ||
     given (o_execPattern o) || given (o_maxOpCnt o) || given (o_memLeakCnt o) || given (o_subthread o) then None
  else if isSafe ip &&
     (given (o_maxDepth o) || given (o_maxArrayList o) || given (o_maxIncDepth o) || given (o_maxInterpDepth o) ||
      given (o_maxUserObjs o) || given (o_noLoad o) || given (o_noNetwork o) || given (o_noStderr o) ||
      given (o_noSubInterps o)) then None
  else Some (options_process o ip).

(** the record before the options are processed, jsiInterp.c:1118-1143; the defaults are
    JSI_MAX_EVAL_DEPTH 1000, JSI_MAX_INCLUDE_DEPTH 50, MAX_ARRAY_LIST 100000 *)
Definition fresh (parent : interp) : interp :=
  {| isSafe := false; startSafe := false; safeMode := SNone; readDirs := None; writeDirs := None; execPattern := None;
     maxDepth := 1000; maxArrayList := 100000; maxIncDepth := 50; maxInterpDepth := maxInterpDepth parent;
     maxUserObjs := 0; maxOpCnt := 0; memLeakCnt := 0; interpDepth := interpDepth parent + 1;
     noLoad := false; noNetwork := false; noStderr := false; noSubInterps := false; subthread := false; lockDown := None |}.

(** the part for a safe parent, jsiInterp.c:1371-1393 *)
Definition inherit (parent ip : interp) : interp :=
  {| isSafe := true; startSafe := startSafe ip; safeMode := safeMode parent;
     readDirs := None; writeDirs := None; execPattern := None;
     maxDepth := maxDepth parent; maxArrayList := maxArrayList parent; maxIncDepth := maxIncDepth parent;
     maxInterpDepth := maxInterpDepth parent; maxUserObjs := maxUserObjs parent; maxOpCnt := maxOpCnt parent;
     memLeakCnt := memLeakCnt parent; interpDepth := interpDepth ip;
     noLoad := noLoad parent || noLoad ip; noNetwork := noNetwork parent || noNetwork ip;
     noStderr := noStderr parent || noStderr ip; noSubInterps := noSubInterps parent || noSubInterps ip;
     subthread := subthread ip; lockDown := lockDown ip |}.

(** 1419-1420 *)
Definition start_safe (ip : interp) : interp :=
  match safeMode ip with
  | SNone => ip
  | _ => {| isSafe := true; startSafe := true; safeMode := safeMode ip;
            readDirs := readDirs ip; writeDirs := writeDirs ip; execPattern := execPattern ip;
            maxDepth := maxDepth ip; maxArrayList := maxArrayList ip; maxIncDepth := maxIncDepth ip;
            maxInterpDepth := maxInterpDepth ip; maxUserObjs := maxUserObjs ip; maxOpCnt := maxOpCnt ip;
            memLeakCnt := memLeakCnt ip; interpDepth := interpDepth ip;
            noLoad := noLoad ip; noNetwork := noNetwork ip; noStderr := noStderr ip; noSubInterps := noSubInterps ip;
            subthread := subthread ip; lockDown := lockDown ip |}
  end.

(** the lockDown part, 1576-1600; [lock_ok] is the stat/access test of the path *)
Definition lock_down (e : env) (lock_ok : str -> bool) (ip : interp) : option interp :=
  match lockDown ip with
  | None => Some ip
  | Some path =>
      if negb (lock_ok path) then None
      else let dirs := Some [file_realpath e path] in
           Some {| isSafe := true; startSafe := startSafe ip; safeMode := SLockdown;
                   readDirs := opt2 (readDirs ip) dirs; writeDirs := dirs; execPattern := execPattern ip;
                   maxDepth := maxDepth ip; maxArrayList := maxArrayList ip; maxIncDepth := maxIncDepth ip;
                   maxInterpDepth := maxInterpDepth ip; maxUserObjs := maxUserObjs ip; maxOpCnt := maxOpCnt ip;
                   memLeakCnt := memLeakCnt ip; interpDepth := interpDepth ip;
                   noLoad := noLoad ip; noNetwork := noNetwork ip; noStderr := noStderr ip; noSubInterps := noSubInterps ip;
                   subthread := subthread ip; lockDown := lockDown ip |}
  end.

(** jsi_InterpNew(parent, opts, NULL), jsiInterp.c:1106-1600, as to these fields.  Not modelled:
    /etc/jsish.conf is taken to be absent, and a confFile option, which a safe sub-interpreter cannot
    read (it has no directories yet when it is looked at). *)
Definition interp_new (e : env) (lock_ok : str -> bool) (parent : interp) (o : iopts) : option interp :=
  if noSubInterps parent then None
  else if maxInterpDepth parent <? interpDepth parent + 1 then None
  else
    let ip := options_process o (fresh parent) in
    if subthread ip && (isSafe ip || isSafe parent) then None          (* 1354-1359 *)
    else
      let ip := if isSafe parent then inherit parent ip else ip in
      lock_down e lock_ok (start_safe ip).

(** the directory part of a path with its slash, or the whole path: jsiEval.c:2547-2551 *)
Definition dir_of (p : str) : str := match last_slash p with Some i => firstn (S i) p | None => p end.

(** What Jsi_EvalFile (jsiEval.c:2542-2570, reached from Interp.source with a first script, flag
    JSI_EVAL_ARGV0) does to the directory lists; [p] is the resolved script path. *)
Definition eval_file_dirs (e : env) (p : str) (ip : interp) : interp :=
  if startSafe ip then
    match readDirs ip, safeMode ip with
    | Some _, _ => ip
    | None, SNone => ip
    | None, m =>
        let rd := Some [Some (dir_of p); Some (cwd e)] in
        {| isSafe := isSafe ip; startSafe := startSafe ip; safeMode := m; readDirs := rd;
           writeDirs := match m with
                        | SWriteRead | SLockdown => opt2 (writeDirs ip) rd
                        | SWrite => Some [Some (cwd e)]
                        | _ => writeDirs ip
                        end;
           execPattern := execPattern ip;
           maxDepth := maxDepth ip; maxArrayList := maxArrayList ip; maxIncDepth := maxIncDepth ip;
           maxInterpDepth := maxInterpDepth ip; maxUserObjs := maxUserObjs ip; maxOpCnt := maxOpCnt ip;
           memLeakCnt := memLeakCnt ip; interpDepth := interpDepth ip;
           noLoad := noLoad ip; noNetwork := noNetwork ip; noStderr := noStderr ip; noSubInterps := noSubInterps ip;
           subthread := subthread ip; lockDown := lockDown ip |}
    end
  else ip.
