(** Replies of the ftp program: lisp/rep/io/file-handlers/remote/ftp.jl.

    Bytes are numbers. Which kind of reply a line is (the regular expressions of 106-145)
    is a parameter, tested on the line that begins at point; so is what asks for a
    password, tested on the text from point to the end of the line, which may not have
    come. Files, directories and logging in are not modelled. *)

From Coq Require Import ZArith List Bool.
Import ListNotations.
Open Scope Z_scope.

(** 106, 313: prompts at point, each followed by any number of spaces *)
Definition prompt_here (t : list Z) : option (list Z) :=
  match t with
  | f :: a :: b :: c :: t => if ((f =? 70) || (f =? 102)) && (a =? 116) && (b =? 112) && (c =? 62) then Some t else None
  | _ => None
  end.
Fixpoint skip_spaces (t : list Z) : list Z :=
  match t with c :: r => if c =? 32 then skip_spaces r else t | [] => [] end.
Fixpoint skip_prompts (fuel : nat) (t : list Z) : list Z :=
  match fuel with
  | O => t
  | S fuel => match prompt_here t with None => t | Some r => skip_prompts fuel (skip_spaces r) end
  end.
(** 316-317 *)
Fixpoint skip_hashes (t : list Z) : list Z :=
  match t with c :: r => if c =? 35 then skip_hashes r else t | [] => [] end.

(** The text up to a newline, and whether and what there is behind it *)
Fixpoint first_line (t : list Z) : list Z :=
  match t with [] => [] | c :: t => if c =? 10 then [] else c :: first_line t end.
Fixpoint after_line (t : list Z) : option (list Z) :=
  match t with [] => None | c :: t => if c =? 10 then Some t else after_line t end.

Inductive kind := Skip | Good | Bad | Multi | Reconnect | Other.
Inductive fstatus := FBusy | FSuccess | FFailure | FDying.
Inductive doing := Called (line : list Z) | Shown (line : list Z) | SentPassword.
(** The status, pending output, and what has been done, last first *)
Record ftp := mkf { f_st : fstatus; f_pending : list Z; f_done : list doing }.

Section Filter.
Variable kind_of : list Z -> kind.
Variable asks : list Z -> bool.

(** 347-372 *)
Definition handle (s : ftp) (line : list Z) : ftp :=
  match kind_of line with
  | Skip => s
  | Good => mkf FSuccess (f_pending s) (f_done s)
  | Bad => mkf FFailure (f_pending s) (f_done s)
  | Multi => mkf (f_st s) (f_pending s) (Shown line :: f_done s)
  | Reconnect => mkf FDying (f_pending s) (f_done s)
  | Other => mkf (f_st s) (f_pending s) (Called line :: f_done s)
  end.
(** 311-375; t is the output from point on. A line for reconnecting ends it with an
    error (365-366). *)
Fixpoint ftp_loop (fuel : nat) (s : ftp) (t : list Z) : ftp :=
  match fuel with
  | O => s
  | S fuel =>
      match t with
      | [] => s
      | _ =>
          let t := skip_hashes (skip_prompts (length t) t) in
          if asks (first_line t) then mkf FBusy (f_pending s) (SentPassword :: f_done s)
          else
            match after_line t with
            | Some rest =>
                let s := handle s (first_line t) in
                match kind_of (first_line t) with
                | Reconnect => s
                | _ => ftp_loop fuel s rest
                end
            | None => mkf (f_st s) t (f_done s)
            end
      end
  end.
(** 300-375 remote-ftp-output-filter *)
Definition ftp_filter (s : ftp) (piece : list Z) : ftp :=
  let t := f_pending s ++ piece in
  ftp_loop (S (length t)) (mkf (f_st s) [] (f_done s)) t.
(** 246-251: after a command *)
Definition ftp_commanded : ftp := mkf FBusy [] [].
Definition ftp_pieces (pieces : list (list Z)) : ftp := fold_left ftp_filter pieces ftp_commanded.
End Filter.
