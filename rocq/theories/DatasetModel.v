(** Model of the download and of the local cache of the large datasets: [get_data_home], [clear_data_home] and [download_dataset]
    (src/skfolio/datasets/_base.py 25-68 and 116-165), which [load_ftse100_dataset], [load_nasdaq_dataset] and
    [load_sp500_implied_vol_dataset] (lines 295-448) call with the name of their file.

    Several calls may run at the same time, in one or several processes.  Each of them is cut at the system calls: between two of them,
    other calls may run, the environment may fail (network, disk) and the process may be killed.

    Files are lists of bytes under inodes: removing a name leaves the inode to the processes that have it open, and two processes
    that write the same file have each their own position, as with POSIX.  Simplifications: a directory is known by one path only; no
    other program writes in it; the remote file does not change; the current directory does not change; closing a file cannot fail; a
    file is read in one step. *)
From Coq Require Import List Arith Bool.
Import ListNotations.

(** a data home after [expanduser] (line 53): an absolute path or a path relative to the current directory *)
Inductive dir := Absolute (d : nat) | Relative (d : nat).
(** [data_filename + ".pkz"] (line 152) and the base name of the URL, [data_filename + ".csv.gz"] (line 160) *)
Inductive kind := Pkz | Archive.
Record path := Path { in_dir : dir; dataset : nat; what : kind }.
Definition dir_dec (a b : dir) : {a = b} + {a <> b}.
Proof. decide equality; apply Nat.eq_dec. Defined.
Definition path_dec (p q : path) : {p = q} + {p <> q}.
Proof. decide equality; [decide equality|apply Nat.eq_dec|apply dir_dec]. Defined.

(** the arguments of [download_dataset], lines 116-120 *)
Record call := Call { home : dir; name : nat; download_if_missing : bool }.
Definition file (c : call) (k : kind) : path := Path (home c) (name c) k.

Inductive error :=
| Missing     (* OSError, line 158 *)
| NotFound    (* FileNotFoundError *)
| Corrupt     (* the file cannot be read *)
| Environment. (* network or disk *)

Section Datasets.
(** tables; the bytes of the remote archive of each dataset; reading an archive ([load_gzip_compressed_csv_data], line 162), [joblib.dump]
    (line 163) and [joblib.load] (line 155), [None] being an exception *)
Variable table : Type.
Variable archive : nat -> list nat.
Variable parse : list nat -> option table.
Variable dump : table -> list nat.
Variable load : list nat -> option table.

(** where a call is: the next thing it does *)
Inductive pc :=
| Start                                (* get_data_home, line 151 *)
| Check                                (* os.path.exists, line 154 *)
| Load                                 (* joblib.load, line 155 *)
| Connect                              (* ur.urlretrieve, line 161: the connection, then the archive is opened *)
| Fetch (handle position : nat)        (* the same: blocks written to the archive *)
| Parse                                (* line 162 *)
| Open (t : table)                     (* joblib.dump, line 163: the file is opened *)
| Dump (t : table) (handle position : nat)
| Remove (t : table)                   (* os.remove, line 164 *)
| Returned (t : table)                 (* lines 155 and 165 *)
| Raised (e : error)
| Killed.
Definition live (p : pc) : bool := match p with Returned _ | Raised _ | Killed => false | _ => true end.

Record state := State {
  dirs : dir -> bool;
  names : path -> option nat;
  data : nat -> list nat;
  next : nat;
  procs : list (call * pc) }.
Definition init : state := State (fun _ => false) (fun _ => None) (fun _ => []) 0 [].

(** ** system calls *)
Definition read (s : state) (p : path) : option (list nat) := option_map (data s) (names s p).
Definition set_dir (s : state) (d : dir) (b : bool) : state :=
  State (fun x => if dir_dec x d then b else dirs s x) (names s) (data s) (next s) (procs s).
Definition set_name (s : state) (p : path) (i : option nat) : state :=
  State (dirs s) (fun q => if path_dec q p then i else names s q) (data s) (next s) (procs s).
Definition set_data (s : state) (h : nat) (b : list nat) : state :=
  State (dirs s) (names s) (fun i => if Nat.eq_dec i h then b else data s i) (next s) (procs s).
(** open(path, "wb"): the file is emptied if it exists and created otherwise; its handle *)
Definition open_w (s : state) (p : path) : state * nat :=
  match names s p with
  | Some i => (set_data s i [], i)
  | None => let s := set_data (set_name s p (Some (next s))) (next s) [] in
            (State (dirs s) (names s) (data s) (S (next s)) (procs s), next s)
  end.
(** bytes written at a position: zeros fill the gap after the end of the file *)
Definition overlay (b : list nat) (pos : nat) (chunk : list nat) : list nat :=
  firstn pos (b ++ repeat 0 (pos - length b)) ++ chunk ++ skipn (pos + length chunk) b.
Definition write (s : state) (h pos : nat) (chunk : list nat) : state := set_data s h (overlay (data s h) pos chunk).

(** ** one step of [download_dataset]; [n]: size of the block, when one is written *)
Definition exec (s : state) (c : call) (p : pc) (n : nat) : state * pc :=
  match p with
  | Start => (set_dir s (home c) true, Check)
  | Check =>
      match names s (file c Pkz) with
      | Some _ => (s, Load)
      | None => (s, if download_if_missing c then Connect else Raised Missing)
      end
  | Load =>
      (s, match read s (file c Pkz) with
          | None => Raised NotFound
          | Some b => match load b with Some t => Returned t | None => Raised Corrupt end
          end)
  | Connect =>
      if dirs s (home c) then let (s, h) := open_w s (file c Archive) in (s, Fetch h 0) else (s, Raised NotFound)
  | Fetch h pos =>
      match skipn pos (archive (name c)) with
      | [] => (s, Parse)
      | rest => let chunk := firstn (S n) rest in (write s h pos chunk, Fetch h (pos + length chunk))
      end
  | Parse =>
      (* [resources.files(data_module).joinpath(archive_path)], line 107: the path itself when it is absolute; a relative path is taken
         in the package, where there is no such file *)
      match home c with
      | Relative _ => (s, Raised NotFound)
      | Absolute _ =>
          (s, match read s (file c Archive) with
              | None => Raised NotFound
              | Some b => match parse b with Some t => Open t | None => Raised Corrupt end
              end)
      end
  | Open t =>
      if dirs s (home c) then let (s, h) := open_w s (file c Pkz) in (s, Dump t h 0) else (s, Raised NotFound)
  | Dump t h pos =>
      match skipn pos (dump t) with
      | [] => (s, Remove t)
      | rest => let chunk := firstn (S n) rest in (write s h pos chunk, Dump t h (pos + length chunk))
      end
  | Remove t =>
      match names s (file c Archive) with
      | None => (s, Raised NotFound)
      | Some _ => (set_name s (file c Archive) None, Returned t)
      end
  | _ => (s, p)
  end.

(** ** histories *)
Inductive event :=
| Begin (c : call)     (* a call of download_dataset *)
| Step (i n : nat)     (* the i-th call does its next step *)
| Fault (i : nat)      (* what the i-th call was doing fails *)
| Kill (i : nat)       (* the process of the i-th call is killed *)
| Clear (d : dir).     (* clear_data_home, lines 58-68: the directory is created if needed and removed *)
Fixpoint set_nth {A} (l : list A) (i : nat) (x : A) : list A :=
  match l, i with
  | [], _ => []
  | _ :: r, O => x :: r
  | a :: r, S i => a :: set_nth r i x
  end.
Definition set_proc (s : state) (i : nat) (x : call * pc) : state :=
  State (dirs s) (names s) (data s) (next s) (set_nth (procs s) i x).
Definition step (s : state) (e : event) : state :=
  match e with
  | Begin c => State (dirs s) (names s) (data s) (next s) (procs s ++ [(c, Start)])
  | Step i n =>
      match nth_error (procs s) i with
      | None => s
      | Some (c, p) => let (s, p) := exec s c p n in set_proc s i (c, p)
      end
  | Fault i =>
      match nth_error (procs s) i with
      | Some (c, p) => if live p then set_proc s i (c, Raised Environment) else s
      | None => s
      end
  | Kill i =>
      match nth_error (procs s) i with
      | Some (c, p) => if live p then set_proc s i (c, Killed) else s
      | None => s
      end
  | Clear d => State (fun x => if dir_dec x d then false else dirs s x)
                     (fun p => if dir_dec (in_dir p) d then None else names s p) (data s) (next s) (procs s)
  end.
Definition run (s : state) (es : list event) : state := fold_left step es s.
End Datasets.
