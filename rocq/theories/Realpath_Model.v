(** realpath as librep brings it for systems without: src/realpath.c 78-217.

    The file system is given by names from the root; lstat and readlink of the
    kernel see the names that the path consists of.  Directories can be
    searched, no other process changes anything.  RESOLVED is not NULL (as in
    src/unix_files.c 214).  Strings have no zero bytes; what is in RESOLVED
    after an error is left out. *)
From Coq Require Import List ZArith Bool.
Import ListNotations.
Open Scope Z_scope.

Definition str := list Z.
Definition slash : Z := 47.
Inductive node := Directory | Symlink (target : str) | Other.
Definition filesys := list str -> option node.

(** The names in a path, split at slashes *)
Fixpoint split (s name : str) : list str :=
  match s with
  | [] => match name with [] => [] | _ => [rev name] end
  | c :: s => if c =? slash then match name with [] => split s [] | _ => rev name :: split s [] end
              else split s (c :: name)
  end.
Definition names (s : str) : list str := split s [].
(** The kernel: the file at the end of names, all before being directories *)
Fixpoint at_names (fs : filesys) (before rest : list str) : option node :=
  match rest with
  | [] => fs before
  | n :: rest =>
      match fs before with
      | Some Directory => at_names fs (before ++ [n]) rest
      | _ => None
      end
  end.
Definition lstat (fs : filesys) (path : str) : option node := at_names fs [] (names path).

Inductive out := Done (path : str) | Fail | Fuel.

(** 119 *)
Fixpoint skip_slashes (s : str) : str :=
  match s with c :: s' => if c =? slash then skip_slashes s' else s | [] => [] end.
(** 122: the component, and from its end on *)
Fixpoint component (s : str) : str * str :=
  match s with
  | c :: s' => if c =? slash then ([], s) else let '(a, b) := component s' in (c :: a, b)
  | [] => ([], [])
  end.
(** rpath up to dest is kept with the last character first.
    130-131, 197-198: back up to the previous component *)
Fixpoint to_slash (rp : str) : str :=
  match rp with c :: rp' => if c =? slash then rp else to_slash rp' | [] => [] end.
Definition back (rp : str) : str := match rp with [] | [_] => rp | _ :: rp' => to_slash rp' end.
Definition str_eqb (a b : str) : bool := if list_eq_dec Z.eq_dec a b then true else false.

Section Realpath.
  Variable fs : filesys.
  Variable cwd : str.            (* getcwd *)
  Variable path_max : nat.
  Variable maxsymlinks : nat.

  (** 204-206 *)
  Definition finish (rp : str) : out :=
    Done (rev match rp with c :: (_ :: _) as rp' => if c =? slash then rp' else rp | _ => rp end).

  (** 113-203; [name] from start on *)
  Fixpoint loop (fuel : nat) (rp name : str) (num_links : nat) : out :=
    match fuel with
    | O => Fuel
    | S fuel =>
        match name with
        | [] => finish rp
        | _ =>
            let '(comp, end_) := component (skip_slashes name) in
            match comp with
            | [] => finish rp
            | _ =>
                if str_eqb comp [46] then loop fuel rp end_ num_links
                else if str_eqb comp [46; 46] then loop fuel (back rp) end_ num_links
                else
                  let rp := match rp with c :: _ => if c =? slash then rp else slash :: rp | [] => [slash] end in
                  if (path_max <=? length rp + length comp)%nat then Fail
                  else
                    let rp := rev comp ++ rp in
                    match lstat fs (rev rp) with
                    | None => Fail
                    | Some (Symlink target) =>
                        if (maxsymlinks <? S num_links)%nat then Fail
                        else if (path_max <=? length target + length end_)%nat then Fail
                        else loop fuel (match target with c :: _ => if c =? slash then [slash] else back rp | [] => back rp end)
                               (target ++ end_) (S num_links)
                    | Some _ => loop fuel rp end_ 0
                    end
            end
        end
    end.
  (** 97-111 *)
  Definition realpath (fuel : nat) (name : str) : out :=
    loop fuel (match name with c :: _ => if c =? slash then [slash] else rev cwd | [] => rev cwd end) name 0.
End Realpath.
