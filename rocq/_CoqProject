-Q theories Verif
theories/Base.v
theories/Pid_Model.v
theories/Pid_Proofs.v
theories/Pid_Props.v
theories/Time_Model.v
theories/Time_Props.v
theories/Range_Model.v
theories/Range_Props.v
theories/Name_Model.v
theories/Name_Spec.v
theories/Name_Proofs.v
theories/Name_Props.v
theories/Guard_Model.v
theories/Guard_Proofs.v
theories/Guard_Props.v
theories/RwWord_Model.v
theories/RwWord_Proofs.v
theories/RwWord_Props.v
theories/Mutex_Model.v
theories/Mutex_Proofs.v
theories/Mutex_Spec.v
theories/Mutex_Proofs2.v
theories/Mutex_Props.v
theories/Wrap_Model.v
theories/Wrap_Proofs.v
theories/Wrap_Props.v
theories/Lin_Spec.v
theories/Lin_Proofs.v
theories/Lin_Props.v
theories/Nmtx_Model.v
theories/Nmtx_Spec.v
theories/Nmtx_Proofs.v
theories/Nmtx_Proofs2.v
theories/Nmtx_Proofs3.v
theories/Nmtx_Proofs4.v
theories/Nmtx_Props.v
theories/Nmtx_Proofs5.v
theories/Nmtx_Props2.v
theories/Nspin_Model.v
theories/Nspin_Proofs.v
theories/Nspin_Proofs2.v
theories/Nspin_Props.v
theories/List_Model.v
theories/List_Spec.v
theories/List_Proofs.v
theories/List_Props.v
theories/RwApi_Model.v
theories/RwApi_Spec.v
theories/RwApi_Proofs.v
theories/RwApi_Proofs2.v
theories/RwApi_Proofs3.v
theories/RwApi_Proofs4.v
theories/RwApi_Proofs5.v
theories/RwApi_Proofs6.v
theories/RwApi_Proofs7.v
theories/RwApi_Proofs8.v
theories/RwApi_Proofs9.v
theories/RwApi_Proofs10.v
theories/RwApi_Props.v
theories/RwApi_Proofs11.v
theories/RwApi_Proofs12.v
theories/RwApi_Props2.v
theories/RwApi_Props3.v
theories/RwApi_Props4.v
theories/RwLin_Spec.v
theories/RwLin_Proofs.v
theories/RwLin_Props.v
theories/Cond_Model.v
theories/Cond_Spec.v
theories/Cond_Proofs.v
theories/Cond_Proofs2.v
theories/Cond_Proofs3.v
theories/Cond_Proofs4.v
theories/Cond_Proofs5.v
theories/Cond_Proofs6.v
theories/Cond_Proofs7.v
theories/Cond_Proofs8.v
theories/Cond_Props.v
theories/Layout_Model.v
theories/Layout_Spec.v
theories/Layout_Props.v
theories/Init_Model.v
theories/Init_Spec.v
theories/Init_Proofs.v
theories/Init_Proofs2.v
theories/Init_Proofs3.v
theories/Init_Exec.v
theories/Init_Props.v
theories/Path_Model.v
theories/Path_Spec.v
theories/Path_Proofs.v
theories/Path_Props.v
theories/Config_Model.v
theories/Config_Spec.v
theories/Config_Proofs.v
theories/Config_Proofs2.v
theories/Config_Props.v
theories/Config_Props2.v
theories/Util_Model.v
theories/Util_Spec.v
theories/Util_Proofs.v
theories/Util_Proofs2.v
theories/Util_Proofs3.v
theories/Util_Props.v
theories/Cache_Model.v
theories/Cache_Spec.v
theories/Cache_Proofs.v
theories/Cache_Props.v
theories/Thread_Model.v
theories/Thread_Spec.v
theories/Thread_Proofs.v
theories/Thread_Proofs2.v
theories/Thread_Proofs3.v
theories/Thread_Props.v
theories/Rcsv_Model.v
theories/Rcsv_Spec.v
theories/Rcsv_Proofs.v
theories/Rcsv_Proofs2.v
theories/Rcsv_Proofs3.v
theories/Rcsv_Proofs4.v
theories/Rcsv_Proofs5.v
theories/Rcsv_Proofs6.v
theories/Rcsv_Proofs7.v
theories/Rcsv_Proofs8.v
theories/Rcsv_Proofs9.v
theories/Rcsv_Props.v
theories/Sweep_Model.v
theories/Sweep_Spec.v
theories/Sweep_Proofs.v
theories/Sweep_Proofs2.v
theories/Sweep_Props.v
theories/Dbg_Model.v
theories/Dbg_Spec.v
theories/Dbg_Proofs.v
theories/Dbg_Props.v
theories/Dump_Model.v
theories/Dump_Spec.v
theories/Dump_Proofs.v
theories/Dump_Proofs2.v
theories/Dump_Props.v
theories/Rspin_Model.v
theories/Rspin_Proofs.v
theories/Rspin_Proofs2.v
theories/Rspin_Proofs3.v
theories/Rspin_Props.v
theories/Rspin_Props2.v
theories/Front_Model.v
theories/Front_Props.v
theories/Front_Props2.v
theories/Fair_Spec.v
theories/Fair_Props.v
theories/Cspin_Model.v
theories/Cspin_Spec.v
theories/Cspin_Proofs.v
theories/Cspin_Proofs2.v
theories/Cspin_Proofs3.v
theories/Cspin_Props.v
theories/Wres_Model.v
theories/Wres_Spec.v
theories/Wres_Proofs.v
theories/Wres_Proofs2.v
theories/Wres_Proofs3.v
theories/Wres_Proofs4.v
theories/Wres_Props.v
theories/Rcon_Model.v
theories/Rcon_Spec.v
theories/Rcon_Proofs.v
theories/Rcon_Proofs2.v
theories/Rcon_Proofs3.v
theories/Rcon_Proofs4.v
theories/Rcon_Props.v
theories/Mlen_Model.v
theories/Mlen_Spec.v
theories/Mlen_Proofs.v
theories/Mlen_Props.v
theories/Fchild_Model.v
theories/Fchild_Spec.v
theories/Fchild_Proofs.v
theories/Fchild_Props.v
theories/Stat_Model.v
theories/Stat_Spec.v
theories/Stat_Proofs.v
theories/Stat_Proofs2.v
theories/Stat_Props.v
theories/First_Model.v
theories/First_Spec.v
theories/First_Proofs.v
theories/First_Props.v
theories/First_Props2.v
theories/Tso_Model.v
theories/Tso_Spec.v
theories/Tso_Proofs.v
theories/Tso_Proofs2.v
theories/Tso_Props.v
theories/Tso_Props2.v
theories/Again_Props.v
theories/Rfork_Model.v
theories/Rfork_Spec.v
theories/Rfork_Proofs.v
theories/Rfork_Proofs2.v
theories/Rfork_Props.v
theories/Tkey_Model.v
theories/Tkey_Spec.v
theories/Tkey_Proofs.v
theories/Tkey_Props.v
theories/Refile_Model.v
theories/Refile_Spec.v
theories/Refile_Proofs.v
theories/Refile_Props.v
theories/Wake_Model.v
theories/Wake_Spec.v
theories/Wake_Proofs.v
theories/Wake_Props.v
theories/Exec_Model.v
theories/Exec_Spec.v
theories/Exec_Proofs.v
theories/Exec_Props.v
theories/Exec_Props2.v
theories/Cset_Model.v
theories/Cset_Spec.v
theories/Cset_Proofs.v
theories/Cset_Props.v
theories/Disc_Model.v
theories/Disc_Spec.v
theories/Disc_Proofs.v
theories/Disc_Props.v
theories/Dump_Props2.v
