(** Model of the files of [NeuroCausalFactorAnalysis] when several models are
    constructed and fitted by several processes (or one after the other) on one
    file system: medil/models.py 149-158 (constructor), 181-186 (log), 188-214
    (fit), 273, 281, 321 and 371 (what is logged). *)
From Coq Require Import Ascii String.
From Verif Require Import Base NcfaModel.
Local Open Scope string_scope.

(** A POSIX file system without links: which directories exist (written with a
    final slash, the working directory is ""), and the bytes of the files.
    Different strings name different files ("." and ".." are left out). *)
Record fs := FS { dirs : string -> bool; files : string -> option (list nat) }.

(** What the system calls do.  [Append]: log opens the file in mode "a", writes
    one line and closes it (models.py 183-184); the line is shorter than the
    buffer, so it is one write at the end of the file.  [Truncate]: open in mode
    "wb".  [WriteAt]: one write of a buffer at the position reached so far. *)
Inductive op :=
| Append (f : string) (line : list nat)
| Truncate (f : string)
| WriteAt (f : string) (off : nat) (chunk : list nat).
Definition target (o : op) : string := match o with Append f _ => f | Truncate f => f | WriteAt f _ _ => f end.

Fixpoint dirname (s : string) : string :=
  match s with
  | EmptyString => EmptyString
  | String c t => let d := dirname t in
                  if (String.eqb d EmptyString && negb (Ascii.eqb c "/"%char))%bool then EmptyString else String c d
  end.
Definition bytes (x : option (list nat)) : list nat := match x with Some b => b | None => [] end.
Definition set_file (f : string) (b : list nat) (s : fs) : fs :=
  FS (dirs s) (fun f' => if String.eqb f' f then Some b else files s f').
(** Writing [c] at position [off]: a gap is filled with zeros, bytes behind the
    end of the buffer stay. *)
Definition overlay (old : list nat) (off : nat) (c : list nat) : list nat :=
  (firstn off (old ++ repeat 0 (off - List.length old)) ++ c ++ skipn (off + List.length c) old)%list.
(** None is FileNotFoundError: the directory does not exist.  An open file can
    be written to in any case. *)
Definition exec (o : op) (s : fs) : option fs :=
  match o with
  | Append f line => if dirs s (dirname f) then Some (set_file f (bytes (files s f) ++ line)%list s) else None
  | Truncate f => if dirs s (dirname f) then Some (set_file f [] s) else None
  | WriteAt f off c => Some (set_file f (overlay (bytes (files s f)) off c) s)
  end.

(** One call of fit: where it writes, the lines it logs, and the buffers in
    which the network, the losses and the errors are written. *)
Record job := Job {
  j_path : string;
  j_lines : list (list nat);
  j_model : list (list nat);
  j_loss : list (list nat);
  j_error : list (list nat)
}.
Fixpoint writes (f : string) (off : nat) (chunks : list (list nat)) : list op :=
  match chunks with
  | [] => []
  | c :: t => WriteAt f off c :: writes f (off + List.length c) t
  end.
Definition save (f : string) (chunks : list (list nat)) : list op := Truncate f :: writes f 0 chunks.
(** models.py 188-225: all lines are logged during training; then the three
    files are written one after the other. *)
Definition fit_ops (j : job) : list op :=
  (map (Append (log_file (j_path j))) (j_lines j) ++
   save (path_join (j_path j) "model_recon.pt") (j_model j) ++
   save (path_join (j_path j) "loss_recon.pkl") (j_loss j) ++
   save (path_join (j_path j) "error_recon.pkl") (j_error j))%list.

(** Concurrent fits: the file system and what each of them still has to do.  An
    exception ends the fit. *)
Record world := World { w_fs : fs; w_rest : nat -> list op }.
Definition step (i : nat) (w : world) : world :=
  match w_rest w i with
  | [] => w
  | o :: rest => match exec o (w_fs w) with
                 | Some s => World s (fun k => if (k =? i)%nat then rest else w_rest w k)
                 | None => World (w_fs w) (fun k => if (k =? i)%nat then [] else w_rest w k)
                 end
  end.
(** A schedule lists which fit makes its next step; a fit that is killed is not
    listed any more. *)
Definition run (schedule : list nat) (w : world) : world := fold_left (fun w i => step i w) schedule w.
Definition start (jobs : list job) (s : fs) : world :=
  World s (fun i => match nth_error jobs i with Some j => fit_ops j | None => [] end).

(** models.py 158: Path(path).mkdir(exist_ok=True). *)
Inductive io := Done | FileNotFound | FileExists.
Definition strip_slash (path : string) : string :=
  if ends_with_slash path then String.substring 0 (String.length path - 1) path else path.
Definition slashed (path : string) : string :=
  if (String.eqb path "")%string then "" else if ends_with_slash path then path else path ++ "/".
Definition construct (path : string) (s : fs) : fs * io :=
  let d := slashed path in
  if dirs s d then (s, Done)
  else match files s (strip_slash path) with
       | Some _ => (s, FileExists)
       | None => if dirs s (dirname (strip_slash path))
                 then (FS (fun d' => String.eqb d' d || dirs s d') (files s), Done)
                 else (s, FileNotFound)
       end.
