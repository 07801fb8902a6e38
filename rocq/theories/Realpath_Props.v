(** Real paths. *)
From Coq Require Import ZArith List Bool Lia.
Import ListNotations.
From Verif Require Import Realpath_Model Realpath_Spec Realpath_Proofs.
Open Scope Z_scope.

(** A result is the canonical path of a file that exists: absolute, without dots, no link in it. *)
Theorem C84_canonical fs c path_max maxsymlinks fuel name r :
  fs [] = Some Directory -> canonical fs c ->
  realpath fs (path_text c) path_max maxsymlinks fuel name = Done r ->
  exists p, r = path_text p /\ canonical fs p.
Proof. intros R C H. destruct (realpath_sound _ _ _ _ _ _ _ R C H) as (d & p & _ & _ & _ & P & E). exists p. auto. Qed.
Print Assumptions C84_canonical.

(** It is the file that the kernel finds under the name, if it finds one. *)
Theorem C84_same_file_partial fs c path_max maxsymlinks fuel name r d l k p :
  fs [] = Some Directory -> canonical fs c ->
  (absolute name -> d = []) -> (~ absolute name -> d = c) -> parts name l -> walk fs k d l p ->
  realpath fs (path_text c) path_max maxsymlinks fuel name = Done r -> r = path_text p.
Proof.
  intros R C A1 A2 P W H. destruct (realpath_sound _ _ _ _ _ _ _ R C H) as (d2 & p2 & B1 & B2 & L & _ & ->).
  assert (d = d2) as <- by (destruct (absolute_dec name) as [A|A]; [rewrite (A1 A), (B1 A)|rewrite (A2 A), (B2 A)]; reflexivity).
  apply walk_lax in W. unfold names0 in L. rewrite (parts_names _ _ P) in L. rewrite (lax_fun _ _ _ _ W _ L). reflexivity.
Qed.
Print Assumptions C84_same_file_partial.

(** Every file that the kernel finds over at most maxsymlinks links is found, given space. *)
Theorem C84_found_partial fs c maxsymlinks name d l k p :
  fs [] = Some Directory -> canonical fs c ->
  (absolute name -> d = []) -> (~ absolute name -> d = c) -> parts name l -> walk fs k d l p -> (k <= maxsymlinks)%nat ->
  exists f0 m0, forall fuel path_max, (f0 <= fuel)%nat -> (m0 <= path_max)%nat ->
    realpath fs (path_text c) path_max maxsymlinks fuel name = Done (path_text p).
Proof. intros R C A1 A2 P W K. exact (realpath_complete fs c maxsymlinks name l p d k R C A1 A2 P W K). Qed.
Print Assumptions C84_found_partial.

(** The real path of a result is that result, wherever it is asked for. *)
Theorem C84_again fs c path_max maxsymlinks fuel name r :
  fs [] = Some Directory -> canonical fs c ->
  realpath fs (path_text c) path_max maxsymlinks fuel name = Done r ->
  forall cwd path_max' maxsymlinks' fuel', (length r < path_max')%nat -> (length r < fuel')%nat ->
    realpath fs cwd path_max' maxsymlinks' fuel' r = Done r.
Proof.
  intros R C H cwd pm ms f L F. destruct (C84_canonical _ _ _ _ _ _ _ R C H) as (p & -> & P). apply again; [exact P|exact L|].
  assert (X := path_text_len p (proj1 P)). lia.
Qed.
Print Assumptions C84_again.

(** Two names of one file have one real path. *)
Theorem C84_one_path_partial fs c pm1 pm2 ms1 ms2 f1 f2 n1 n2 r1 r2 d1 d2 l1 l2 k1 k2 p :
  fs [] = Some Directory -> canonical fs c ->
  (absolute n1 -> d1 = []) -> (~ absolute n1 -> d1 = c) -> parts n1 l1 -> walk fs k1 d1 l1 p ->
  (absolute n2 -> d2 = []) -> (~ absolute n2 -> d2 = c) -> parts n2 l2 -> walk fs k2 d2 l2 p ->
  realpath fs (path_text c) pm1 ms1 f1 n1 = Done r1 -> realpath fs (path_text c) pm2 ms2 f2 n2 = Done r2 -> r1 = r2.
Proof.
  intros R C A1 A2 P1 W1 B1 B2 P2 W2 H1 H2. rewrite (C84_same_file_partial _ _ _ _ _ _ _ _ _ _ _ R C A1 A2 P1 W1 H1). symmetry. exact (C84_same_file_partial _ _ _ _ _ _ _ _ _ _ _ R C B1 B2 P2 W2 H2).
Qed.
Print Assumptions C84_one_path_partial.

(** A file system for the cases: /d, /d/f a file, /l a link to d, /up a link to ../d/./l2, /d/l2 a link to /l/f, /a a link to d/../a *)
Definition names_eqb (a b : list str) : bool := if list_eq_dec (list_eq_dec Z.eq_dec) a b then true else false.
Definition n_d : str := [100]. Definition n_f : str := [102]. Definition n_l : str := [108]. Definition n_a : str := [97].
Definition n_up : str := [117; 112]. Definition n_l2 : str := [108; 50].
Definition disk : filesys := fun p =>
  if names_eqb p [] then Some Directory
  else if names_eqb p [n_d] then Some Directory
  else if names_eqb p [n_d; n_f] then Some Other
  else if names_eqb p [n_l] then Some (Symlink n_d)
  else if names_eqb p [n_up] then Some (Symlink [46; 46; 47; 100; 47; 46; 47; 108; 50])
  else if names_eqb p [n_d; n_l2] then Some (Symlink [47; 108; 47; 102])
  else if names_eqb p [n_a] then Some (Symlink [100; 47; 46; 46; 47; 97])
  else None.

(** A link over a directory and back to itself is never given up: the number of links begins again
    at each component that is not a link. *)
Theorem C84_endless_refuted : exists fs name, fs [] = Some Directory /\
  forall path_max maxsymlinks fuel, realpath fs [47] (16 + path_max) (S maxsymlinks) fuel name = Fuel.
Proof.
  exists disk, [47; 97]. split; [reflexivity|]. intros pm ms fuel. unfold realpath. change (47 =? slash) with true. cbn iota.
  assert (X : forall m f, (f < m)%nat -> loop disk (16 + pm) (S ms) f [slash] [47; 97] 0 = Fuel).
  { induction m as [|m IH]; intros f L; [lia|]. destruct f as [|[|[|f]]]; try reflexivity.
    change (loop disk (16 + pm) (S ms) f [slash] [47; 97] 0 = Fuel). apply IH. lia. }
  apply (X (S fuel)). lia.
Qed.
Print Assumptions C84_endless_refuted.

Ltac bad := match goal with
  | H : disk _ = Some (Symlink _) |- _ => vm_compute in H; discriminate H
  | H : disk _ = Some Directory |- _ => vm_compute in H; discriminate H
  | H : ordinary dotdot |- _ => destruct H as (_ & _ & _ & N); destruct (N eq_refl)
  end.
(** What follows a file that is not a directory is not refused. *)
Theorem C84_not_directory_refuted : exists fs name l fuel r, fs [] = Some Directory /\ parts name l /\
  realpath fs [47] 1024 8 fuel name = Done r /\ forall k p, ~ walk fs k [] l p.
Proof.
  exists disk, [47; 100; 47; 102; 47; 46; 46], [n_d; n_f; dotdot], 9%nat, [47; 100]. split; [reflexivity|].
  split. { apply p_slash. apply (p_more [100] [102; 47; 46; 46]); [discriminate|intros [E|[]]; discriminate| |discriminate]. apply (p_more [102] [46; 46]); [discriminate|intros [E|[]]; discriminate| |discriminate].
    apply p_last; [discriminate|]. intros [E|[E|[]]]; discriminate. }
  split; [vm_compute; reflexivity|]. intros k p W. clear - W.
  inversion W; subst; try bad. clear W. match goal with H : walk _ _ _ _ _ |- _ => cbn [app] in H; inversion H; subst; try bad; clear H end.
  match goal with H : walk _ _ _ _ _ |- _ => cbn [app] in H; inversion H; subst; try bad end.
Qed.
Print Assumptions C84_not_directory_refuted.

(** The empty name is that of the current directory, though POSIX has it refused. *)
Theorem C84_empty_refuted : exists fs c, fs [] = Some Directory /\ canonical fs c /\
  realpath fs (path_text c) 1024 8 1 [] = Done (path_text c).
Proof.
  exists disk, [n_d]. split; [reflexivity|]. split; [|vm_compute; reflexivity]. split.
  - constructor; [|constructor]. split; [discriminate|]. split; [intros [E|[]]; discriminate|]. split; discriminate.
  - split; [|exists Directory; split; [reflexivity|intros t; discriminate]]. intros a b E NB. destruct a as [|x a]; [reflexivity|]. injection E as _ E. symmetry in E. apply app_eq_nil in E as [_ E]. congruence.
Qed.
Print Assumptions C84_empty_refuted.

(** over three links to /d/f *)
Example up_of_disk : realpath disk [47] 1024 8 20 [117; 112] = Done [47; 100; 47; 102].
Proof. vm_compute. reflexivity. Qed.
Example up_absolute : realpath disk [47; 100] 1024 8 20 [47; 47; 108; 47; 46; 46; 47; 117; 112] = Done [47; 100; 47; 102].
Proof. vm_compute. reflexivity. Qed.
Example too_many_links : realpath disk [47] 1024 2 20 [117; 112] = Done [47; 100; 47; 102] /\ realpath disk [47] 1024 1 20 [117; 112] = Fail.
Proof. vm_compute. split; reflexivity. Qed.
Example missing : realpath disk [47] 1024 8 20 [100; 47; 120] = Fail /\ realpath disk [47] 1024 8 20 [100; 47; 102; 47; 120] = Fail.
Proof. vm_compute. split; reflexivity. Qed.
(** the kernel walks up as well *)
Lemma plain n : existsb (Z.eqb 47) n = false -> str_eqb n dot = false -> str_eqb n dotdot = false -> n <> [] -> ordinary n.
Proof.
  intros A B C D. split; [exact D|]. split; [|split; apply str_eqb_no; assumption]. intros I. assert (X : existsb (Z.eqb 47) n = true) by (apply existsb_exists; exists 47; split; [exact I|reflexivity]). congruence.
Qed.
Example walk_l : walk disk 1 [] [n_l; n_f] [n_d; n_f].
Proof.
  apply (w_link disk 0 [] n_l n_d [n_d] _ []); try reflexivity; [apply plain; reflexivity || discriminate|apply p_last; [discriminate|intros [E|[]]; discriminate]|].
  apply (w_name disk 0 [] n_d Directory); try reflexivity; [apply plain; reflexivity || discriminate|discriminate|].
  apply (w_name disk 0 [n_d] n_f Other); try reflexivity; [apply plain; reflexivity || discriminate|discriminate|]. constructor.
Qed.
Example l_f : exists f0 m0, forall fuel path_max, (f0 <= fuel)%nat -> (m0 <= path_max)%nat -> realpath disk [47] path_max 1 fuel [108; 47; 102] = Done [47; 100; 47; 102].
Proof.
  apply (C84_found_partial disk [] 1 [108; 47; 102] [] [n_l; n_f] 1 [n_d; n_f]); try reflexivity.
  - apply place_canonical. apply root_place. reflexivity.
  - apply (p_more [108] [102]); [discriminate|intros [E|[]]; discriminate| |discriminate]. apply p_last; [discriminate|intros [E|[]]; discriminate].
  - exact walk_l.
Qed.
