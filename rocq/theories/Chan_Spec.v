(** What registrations mean. *)
From Coq Require Import String List Bool ZArith.
From Verif Require Import Chan_Model.
Import ListNotations.
Open Scope Z_scope.

(** All registrations of a component, in order; None if one of them leaves the array *)
Fixpoint vq_run (s : vqs) (rs : list vreg) : option vqs :=
  match rs with
  | [] => Some s
  | r :: rs => match vq_register s r with Returns (_, s) => vq_run s rs | Fault => None end
  end.
Fixpoint mq_run (s : mqs) (rs : list mreg) : option mqs :=
  match rs with
  | [] => Some s
  | r :: rs => match mq_register s r with Returns (_, s) => mq_run s rs | Fault => None end
  end.

(** A registration that is in order *)
Definition vq_valid (r : vreg) : Prop := 0 <= vr_id r <= 100 /\ vr_buf r <> 0 /\ vr_notify r <> 0.
Definition mq_valid (r : mreg) : Prop :=
  0 <= mr_id r < 100 /\ mr_buf r <> 0 /\ mr_msg r < mr_size r /\
  match mr_funcs r with
  | NoFuncs => False
  | Sender n => n <> 0
  | Receiver p w => p <> 0 /\ w <> 0
  end.

(** The last valid registration under an id, and the first *)
Definition last_under (rs : list vreg) (id : Z) (r : vreg) : Prop :=
  exists before after, rs = before ++ r :: after /\ vq_valid r /\ vr_id r = id /\
    forall q, In q after -> vq_valid q -> vr_id q <> id.
Definition first_under (rs : list mreg) (id : Z) (r : mreg) : Prop :=
  exists before after, rs = before ++ r :: after /\ mq_valid r /\ mr_id r = id /\
    forall q, In q before -> mq_valid q -> mr_id q <> id.

(** A channel as it was registered *)
Definition is_channel (c : vchan) (r : vreg) : Prop :=
  vc_buf c = vr_buf r /\ vc_size c = vr_size r /\ vc_len c = vr_len r /\ vc_notify c = vr_notify r /\
  vc_recv c = vr_recv r /\ vc_badge c = vr_badge r /\ vc_role c = vr_role r /\ vc_name c = Some (vr_name r).
Definition is_mchannel (c : mchan) (r : mreg) : Prop :=
  mc_buf c = mr_buf r /\ mc_len c = mr_len r /\ mc_size c = mr_size r /\ mc_msg c = mr_msg r /\
  mc_funcs c = mr_funcs r.
