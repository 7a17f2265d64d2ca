-Q theories Verif
theories/Base.v
theories/Thermo_Model.v
theories/Thermo_Spec.v
theories/Thermo_Proofs.v
theories/Thermo_Props.v
theories/Geo_Model.v
theories/Geo_Spec.v
theories/Geo_Proofs.v
theories/Geo_Props.v
theories/Mat_Model.v
theories/Mat_Spec.v
theories/Mat_Proofs.v
theories/Mat_Props.v
theories/Help_Model.v
theories/Help_Spec.v
theories/Help_Proofs.v
theories/Help_Props.v
theories/Misc_Model.v
theories/Misc_Spec.v
theories/Misc_Proofs.v
theories/Misc_Props.v
theories/RStruct.v
theories/Lin_Model.v
theories/Lin_Spec.v
theories/Bal_Proofs.v
theories/Lin_Proofs.v
theories/Trip_Proofs.v
theories/Lin_Proofs2.v
theories/Force_Proofs.v
theories/Lin_Props.v
theories/FBal_Model.v
theories/FBal_Proofs.v
theories/FBal_Props.v
theories/Bessel_Model.v
theories/Bessel_Spec.v
theories/Bessel_Proofs.v
theories/Bessel_Proofs2.v
theories/Bessel_Proofs3.v
theories/Bessel_Proofs4.v
theories/Bessel_Proofs5.v
theories/Bessel_Proofs6.v
theories/Bessel_Props.v
theories/Scat_Model.v
theories/Scat_Spec.v
theories/Scat_Proofs.v
theories/Scat_Proofs2.v
theories/Scat_Proofs3.v
theories/Scat_Proofs11.v
theories/Scat_Proofs4.v
theories/Scat_Proofs5.v
theories/Scat_Proofs6.v
theories/Scat_Proofs7.v
theories/Scat_Proofs8.v
theories/Scat_Proofs9.v
theories/Scat_Proofs10.v
theories/Scat_Props.v
theories/Scat_Props2.v
theories/Gaunt_Model.v
theories/Gaunt_Spec.v
theories/Gaunt_Proofs.v
theories/Gaunt_Proofs2.v
theories/Gaunt_Proofs3.v
theories/Gaunt_Proofs4.v
theories/Gaunt_Proofs5.v
theories/Gaunt_Proofs6.v
theories/Gaunt_Proofs7.v
theories/Gaunt_Proofs8.v
theories/Gaunt_Props.v
theories/Trans_Model.v
theories/Trans_Spec.v
theories/Trans_Proofs.v
theories/Trans_Proofs2.v
theories/Trans_Proofs3.v
theories/Trans_Proofs4.v
theories/Trans_Proofs5.v
theories/Trans_Props.v
theories/PFA_Model.v
theories/PFA_Spec.v
theories/PFA_Proofs.v
theories/PFA_Proofs2.v
theories/PFA_Proofs3.v
theories/PFA_Props.v
theories/PFA_Props2.v
theories/RT_Model.v
theories/RT_Spec.v
theories/RT_Spec2.v
theories/RT_Proofs.v
theories/RT_Proofs2.v
theories/RT_Proofs3.v
theories/RT_Proofs4.v
theories/RT_Proofs5.v
theories/RT_Props.v
theories/RT_Proofs6.v
theories/RT_Proofs7.v
theories/RT_Proofs8.v
theories/RT_Proofs9.v
theories/RT_Proofs10.v
theories/RT_Proofs11.v
theories/RT_Props2.v
theories/RT_Props3.v
theories/RT_Props4.v
theories/RT_Proofs12.v
theories/RT_Props5.v
theories/RT_Proofs13.v
theories/RT_Props6.v
theories/Chan_Model.v
theories/Chan_Spec.v
theories/Chan_Proofs.v
theories/Chan_Proofs2.v
theories/Chan_Proofs3.v
theories/Chan_Props.v
theories/RT_Proofs14.v
theories/RT_Props7.v
theories/Run_Model.v
theories/Run_Spec.v
theories/Run_Proofs.v
theories/Run_Proofs2.v
theories/Run_Proofs3.v
theories/Run_Proofs4.v
theories/Run_Proofs5.v
theories/Run_Props.v
theories/Run_Props2.v
theories/Run_Proofs6.v
theories/Run_Props3.v
theories/Run_Proofs7.v
theories/Run_Props4.v
theories/Zero_Model.v
theories/Coat_Model.v
theories/Zero_Proofs.v
theories/Zero_Props.v
theories/Run_Proofs8.v
theories/Run_Props5.v
theories/Lap_Proofs.v
theories/Lap_Proofs2.v
theories/Trans_Proofs6.v
theories/Trans_Props2.v
theories/Exp_Proofs.v
theories/Exp_Proofs2.v
theories/Mono_Proofs.v
theories/Mono_Proofs2.v
theories/Mono_Proofs3.v
theories/RT_Props8.v
theories/Run_Proofs9.v
theories/Run_Props6.v
theories/Cut_Proofs.v
theories/RT_Props9.v
theories/Run_Props7.v
theories/Series_Proofs.v
theories/Series_Proofs2.v
theories/Run_Props8.v
theories/Rad_Spec.v
theories/Rad_Proofs.v
theories/Rad_Proofs2.v
theories/RT_Props10.v
theories/Int_Proofs.v
theories/Int_Proofs2.v
theories/Trans_Proofs7.v
theories/Trans_Props3.v
theories/Ecc_Spec.v
theories/Ecc_Proofs.v
theories/Ecc_Proofs2.v
theories/Rad_Proofs3.v
theories/Ecc_Proofs3.v
theories/Ecc_Proofs4.v
theories/RT_Props11.v
theories/Conv_Spec.v
theories/Conv_Proofs.v
theories/Conv_Proofs2.v
theories/Conv_Proofs3.v
theories/Conv_Proofs4.v
theories/Conv_Proofs5.v
theories/Conv_Proofs6.v
theories/Conv_Proofs7.v
theories/Conv_Props.v
theories/Conv_Spec2.v
theories/Conv_Proofs8.v
theories/Conv_Proofs9.v
theories/Conv_Props2.v
theories/Help_Model2.v
theories/Help_Spec2.v
theories/Help_Proofs2.v
theories/Help_Proofs3.v
theories/Help_Props2.v
theories/Worker_Model.v
theories/Worker_Spec.v
theories/Worker_Proofs.v
theories/Worker_Props.v
theories/Worker_Props2.v
theories/Gui_Model.v
theories/Gui_Spec.v
theories/Gui_Props.v
theories/Far_Proofs.v
theories/Far_Proofs2.v
theories/Far_Proofs3.v
theories/Far_Props.v
theories/Far_Props2.v
theories/Lim_Proofs.v
theories/Lim_Proofs2.v
theories/Lim_Proofs3.v
theories/Lim_Props.v
theories/Rep_Spec.v
theories/Rep_Proofs.v
theories/Rep_Props.v
theories/Stat_Spec.v
theories/Stat_Proofs.v
theories/Stat_Props.v
theories/Stat_Props2.v
theories/Zeta_Proofs.v
theories/Plate_Spec.v
theories/Plate_Proofs.v
theories/Plate_Proofs2.v
theories/Plate_Props.v
theories/Slab_Spec.v
theories/Slab_Proofs.v
theories/Slab_Props.v
theories/Press_Spec.v
theories/Press_Proofs.v
theories/Press_Props.v
theories/Raw_Props.v
theories/Dip_Spec.v
theories/Dip_Proofs.v
theories/Dip_Proofs2.v
theories/Dip_Proofs3.v
theories/Dip_Proofs4.v
theories/Dip_Proofs5.v
theories/Dip_Proofs6.v
theories/Dip_Proofs7.v
theories/Dip_Proofs8.v
theories/Dip_Props.v
theories/Cold_Spec.v
theories/Cold_Proofs.v
theories/Cold_Proofs2.v
theories/Cold_Props.v
theories/Half_Spec.v
theories/Half_Proofs.v
theories/Half_Props.v
theories/Half_Props2.v
theories/MieLim_Spec.v
theories/MieLim_Proofs.v
theories/MieLim_Proofs2.v
theories/MieLim_Props.v
theories/Remote_Proofs.v
theories/Remote_Proofs2.v
theories/Remote_Proofs3.v
theories/Remote_Proofs4.v
theories/Remote_Proofs5.v
theories/Remote_Props.v
theories/Layer_Spec.v
theories/Layer_Proofs.v
theories/Layer_Proofs2.v
theories/Layer_Proofs3.v
theories/Layer_Proofs4.v
theories/Layer_Props.v
theories/Bodies_Spec.v
theories/Bodies_Proofs.v
theories/Bodies_Proofs2.v
theories/Bodies_Proofs3.v
theories/Bodies_Props.v
theories/Bodies_Proofs4.v
theories/Bodies_Props2.v
theories/Bodies_Spec2.v
theories/Bodies_Proofs5.v
theories/Bodies_Proofs6.v
theories/Bodies_Props3.v
theories/Bodies_Props4.v
theories/Bodies_Proofs7.v
theories/Bodies_Props5.v
theories/Bodies_Proofs8.v
theories/Bodies_Props6.v
theories/Bodies_Spec3.v
theories/Bodies_Proofs9.v
theories/Bodies_Props7.v
theories/Bodies_Props8.v
theories/Bodies_Props9.v
