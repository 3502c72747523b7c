(** Friction switching of a whole system: VibrationSystem.set_prestress_mu and reset_real_mu,
    /repo/tmdsimpy/vibration_system.py 118-182, over the list nonlinear_forces.  Only the friction attributes of the elements are
    kept. *)
From Coq Require Import Reals List Bool.
From Verif.Lib Require Import Py.
Import ListNotations.
Open Scope R_scope.

(** The element classes by the methods they have:
    - FrSwitch: both methods, with the attribute in use and the two saved values; JenkinsForce (jenkins_element.py 46-72: Fs,
      real_Fs, prestress_Fs), the JAX JenkinsForce (jax/nlforces/jenkins_element.py 72-73, 89-116), ElasticDryFriction2D (97-98,
      118-138) and 3D (99-100, 131-151) and RoughContactFriction (146-147, 306-331) with mu, real_mu, prestress_mu;
      VectorJenkins and the JAX vector class inherit them
    - FrIwan: Iwan4Force and VectorIwan4: set_prestress_mu raises AssertionError (iwan4_element.py 131-151), no reset_real_mu
    - FrNone: neither method (instantaneous forces) *)
Inductive fric := FrSwitch (current real prestress : R) | FrIwan | FrNone.

(** the constructors: current value = real value, prestress value 0.0 *)
Definition fric_new (f : R) : fric := FrSwitch f f 0.

(** set_prestress_mu, 143-148: the loop stops at the first exception; the elements before it have been switched *)
Fixpoint sys_set_prestress_mu (l : list fric) : list fric * option exn :=
  match l with
  | [] => ([], None)
  | FrSwitch _ r p :: l' => let '(l1, e) := sys_set_prestress_mu l' in (FrSwitch p r p :: l1, e)
  | FrIwan :: l' => (FrIwan :: l', Some AssertionError)
  | FrNone :: l' => let '(l1, e) := sys_set_prestress_mu l' in (FrNone :: l1, e)
  end.

(** reset_real_mu, 177-182 *)
Definition sys_reset_real_mu (l : list fric) : list fric * option exn :=
  (map (fun x => match x with FrSwitch _ r p => FrSwitch r r p | FrIwan => FrIwan | FrNone => FrNone end) l, None).

(** calls by the user, who may catch the exception and go on *)
Inductive fcall := FSet | FReset.
Definition fcall_exec (l : list fric) (c : fcall) : list fric * option exn :=
  match c with FSet => sys_set_prestress_mu l | FReset => sys_reset_real_mu l end.
Definition fcalls_exec (l : list fric) (cs : list fcall) : list fric := fold_left (fun l c => fst (fcall_exec l c)) cs l.
