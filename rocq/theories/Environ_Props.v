(** C82: getenv, setenv and unsetenv (lisp/rep/system/environ.jl). *)
From Coq Require Import ZArith List Bool Lia.
Import ListNotations.
From Verif Require Import Regexp_Model Regexp_Spec Environ_Model Environ_Spec Environ_Proofs.
Open Scope Z_scope.

(** getenv gives the value that the first entry for the name says.  Missing:
    names with = (refuted below), or of more than 6550 bytes; zero bytes *)
Theorem C82_getenv_partial : forall beyond n env, name n -> strings env ->
  exists f0, forall f, (f0 <= f)%nat -> exists r, getenv beyond f n env = Ok r /\ value_of n env r.
Proof. intros. apply get_ok; assumption. Qed.
Print Assumptions C82_getenv_partial.

(** After setenv the name has the value, and the others what they had; no entry
    for another name has gone *)
Theorem C82_setenv_partial : forall beyond n v env, name n -> strings env -> Forall char v ->
  exists f0, forall f, (f0 <= f)%nat -> exists env', setenv beyond f n v env = Ok env' /\ strings env' /\
    value_of n env' (Some v) /\
    (forall n' r, n' <> n -> value_of n' env r -> value_of n' env' r) /\
    (forall e n' v', n' <> n -> says e n' v' -> (In e env <-> In e env')).
Proof.
  intros beyond n v env N S V. destruct (set_ok beyond n N (n ++ equals :: v) env S) as (f0 & H). exists f0. intros f F.
  destruct (H f F) as (r & E & P). unfold setenv. rewrite E. cbn [bind]. eexists. split; [reflexivity|].
  assert (SY : says (n ++ equals :: v) n v) by (split; [reflexivity|apply N]).
  assert (CE : Forall char (n ++ equals :: v)) by (apply Forall_app; split; [apply N|constructor; [unfold char, equals; lia|exact V]]).
  assert (OT : forall n', n' <> n -> forall w, ~ says (n ++ equals :: v) n' w) by (intros n' D w S'; destruct (says_fun _ _ _ _ _ SY S'); congruence).
  destruct r as [env'|].
  - destruct P as (a & e & b & u & -> & Se & A & ->). assert (SA := S). apply Forall_app in SA as [SA SB]. inversion SB; subst.
    split; [apply Forall_app; split; [exact SA|constructor; assumption]|]. split; [apply value_app_none; [exact A|apply v_here; exact SY]|].
    assert (OE : forall n', n' <> n -> forall w, ~ says e n' w) by (intros n' D w S'; destruct (says_fun _ _ _ _ _ Se S'); congruence). split.
    + intros n' r D Hr. exact (value_change n' a e _ b (OE n' D) (OT n' D) r Hr).
    + intros x n' v' D Sx. rewrite !in_app_iff. cbn [In]. split; intros [I|[I|I]]; auto; subst x; exfalso; [exact (OE n' D v' Sx)|exact (OT n' D v' Sx)].
  - split; [constructor; assumption|]. split; [apply v_here; exact SY|]. split.
    + intros n' r D Hr. apply v_later; [apply OT; exact D|exact Hr].
    + intros x n' v' D Sx. cbn [In]. split; [auto|]. intros [I|I]; [|exact I]. subst x. exfalso. exact (OT n' D v' Sx).
Qed.
Print Assumptions C82_setenv_partial.

(** After unsetenv the name has no value, also if it had several entries, and
    the others what they had *)
Theorem C82_unsetenv_partial : forall beyond n env, name n -> strings env ->
  exists f0, forall f, (f0 <= f)%nat -> exists env', unsetenv beyond f n env = Ok env' /\
    value_of n env' None /\
    (forall n' r, n' <> n -> value_of n' env r -> value_of n' env' r) /\
    (forall e, In e env' <-> In e env /\ forall v, ~ says e n v).
Proof.
  intros beyond n env N S. destruct (unset_ok beyond n N env S) as (f0 & H). exists f0. intros f F. destruct (H f F) as (keep & K & ->).
  exists (filter keep env). split; [reflexivity|]. assert (INN : forall e, In e (filter keep env) <-> In e env /\ forall v, ~ says e n v).
  { intros e. rewrite filter_In. split; intros [I Q]; split; auto; apply (K e I); assumption. }
  split; [apply value_none_all; intros x w I; apply INN in I; apply I|]. split; [|exact INN].
  intros n' r D Hr. clear INN S H. induction Hr as [|e v env Se|e env r Se Hr IH]; cbn [filter].
  - constructor.
  - destruct (keep e) eqn:Q; [apply v_here; exact Se|]. exfalso. assert (Z : keep e = true); [|congruence]. apply K; [left; reflexivity|].
    intros w S'. destruct (says_fun _ _ _ _ _ Se S'). congruence.
  - assert (IH' := IH (fun x I => K x (or_intror I))). destruct (keep e); [apply v_later; auto|exact IH'].
Qed.
Print Assumptions C82_unsetenv_partial.

(** A name has one value *)
Theorem C82_one_value : forall n env r r', value_of n env r -> value_of n env r' -> r = r'.
Proof. exact value_fun. Qed.
Print Assumptions C82_one_value.

(** A new process sees the values that getenv gives, if there are any *)
Theorem C82_child_partial : forall environ env n r, strings env -> env <> [] ->
  value_of n env r -> value_of n (child_environ environ env) r.
Proof.
  intros environ env n r S NE H. enough (E : child_environ environ env = env) by (rewrite E; exact H).
  assert (C : forall s, Forall char s -> c_string s = s).
  { induction 1 as [|c s Hc _ IH]; [reflexivity|]. cbn. unfold char in Hc. destruct (Z.eqb_spec c 0); [lia|]. rewrite IH. reflexivity. }
  assert (M : map c_string env = env) by (clear H NE; induction S as [|e env Ce _ IH]; [reflexivity|]; cbn; rewrite (C e Ce), IH; reflexivity).
  destruct env; [congruence|exact M].
Qed.
Print Assumptions C82_child_partial.
(** At the start getenv gives the values of the environment of rep itself, if no
    name is there twice *)
Theorem C82_start_partial : forall environ n r, no_doubles environ -> value_of n environ r -> value_of n (init_environment environ) r.
Proof.
  intros environ n r ND H. unfold init_environment. replace (fold_left (fun env e => e :: env) environ []) with (rev environ); [apply value_rev; assumption|].
  symmetry. rewrite <- (app_nil_r (rev environ)). generalize (@nil (list Z)). clear. induction environ as [|e l IH]; intros acc; [reflexivity|]. cbn. rewrite IH, <- app_assoc. reflexivity.
Qed.
Print Assumptions C82_start_partial.

(** A=1, AB=2, A.=3, A=4 *)
Definition ex_env : list (list Z) := [[65; 66; 61; 50]; [65; 46; 61; 51]; [65; 61; 49]; [65; 61; 52]].
Example ex_ok : name [65] /\ strings ex_env.
Proof. split; [repeat split; [repeat constructor; lia|intros [H|[]]; discriminate|cbn; lia]|repeat constructor; lia]. Qed.
Example ex_get : forall beyond,
  getenv beyond 60 [65] ex_env = Ok (Some [49]) /\ getenv beyond 60 [65; 46] ex_env = Ok (Some [51]) /\ getenv beyond 60 [66] ex_env = Ok None /\
  setenv beyond 60 [65] [57] ex_env = Ok [[65; 66; 61; 50]; [65; 46; 61; 51]; [65; 61; 57]; [65; 61; 52]] /\
  setenv beyond 60 [66] [57] ex_env = Ok ([66; 61; 57] :: ex_env) /\
  unsetenv beyond 60 [65] ex_env = Ok [[65; 66; 61; 50]; [65; 46; 61; 51]].
Proof. intros beyond. repeat split; reflexivity. Qed.

(** setenv takes a name with = and sets another variable: (setenv "A=B" "C")
    makes the value of A "B=C", in front of what A was *)
Theorem C82_equals_refuted : exists n v n' env,
  n' <> n /\ strings env /\ value_of n' env (Some [49]) /\
  forall beyond, exists env', setenv beyond 60 n v env = Ok env' /\ ~ value_of n' env' (Some [49]).
Proof.
  exists [65; 61; 66], [67], [65], [[65; 61; 49]]. split; [discriminate|]. split; [repeat constructor; lia|]. split.
  - apply v_here. split; [reflexivity|]. intros [H|[]]. discriminate.
  - intros beyond. exists [[65; 61; 66; 61; 67]; [65; 61; 49]]. split; [reflexivity|].
    intros H. assert (V : value_of [65] [[65; 61; 66; 61; 67]; [65; 61; 49]] (Some [66; 61; 67])) by (apply v_here; split; [reflexivity|intros [E|[]]; discriminate]).
    assert (X := value_fun _ _ _ _ H V). discriminate.
Qed.
Print Assumptions C82_equals_refuted.
(** With no variables left a new process gets those that rep was started with *)
Theorem C82_empty_child_refuted : exists environ n v,
  value_of n [] None /\ value_of n (child_environ environ []) (Some v).
Proof. exists [[65; 61; 49]], [65], [49]. split; [constructor|]. apply v_here. split; [reflexivity|]. intros [E|[]]; discriminate. Qed.
Print Assumptions C82_empty_child_refuted.
(** A name that is there twice has its last value in rep, its first elsewhere *)
Theorem C82_start_refuted : exists environ n v v',
  v <> v' /\ value_of n environ (Some v) /\ value_of n (init_environment environ) (Some v').
Proof.
  exists [[65; 61; 49]; [65; 61; 50]], [65], [49], [50]. split; [discriminate|].
  split; apply v_here; (split; [reflexivity|]); intros [E|[]]; discriminate.
Qed.
Print Assumptions C82_start_refuted.
Example ex_start : no_doubles [[65; 61; 49]; [66; 61; 50]] /\ init_environment [[65; 61; 49]; [66; 61; 50]] = [[66; 61; 50]; [65; 61; 49]].
Proof.
  split; [|reflexivity]. intros a rest e b e' c n v v' E ->. destruct a as [|x [|y [|]]]; cbn in E.
  - injection E as <- E. destruct b as [|? [|]]; cbn in E; try discriminate. injection E as <- <-.
    intros [E1 N1] [E2 N2]. destruct n as [|p n]; [discriminate|]. cbn in E1, E2. injection E1 as <- _. discriminate.
  - injection E as _ _ E. destruct b; discriminate.
  - discriminate.
  - discriminate.
Qed.
