-Q theories Verif
theories/Base.v
theories/Buffer.v
theories/Loops.v
theories/OrderSpec.v
theories/OrderProofs.v
theories/MKSort_Model.v
theories/MKSort_Proofs.v
theories/MKSort_Props.v
theories/MKStat_Model.v
theories/MKStat_Spec.v
theories/MKStat_Proofs1.v
theories/MKStat_Proofs2.v
theories/MKStat_Proofs3.v
theories/MKStat_Proofs4.v
theories/MKStat_Proofs5.v
theories/MKStat_Proofs6.v
theories/MKStat_Props.v
theories/GF_Model.v
theories/GF_Spec.v
theories/GF_Proofs1.v
theories/GF_Proofs2.v
theories/GF_Proofs3.v
theories/GF_Props.v
theories/NdArray.v
theories/AX_Model.v
theories/AX_Spec.v
theories/AX_Proofs.v
theories/AX_Proofs2.v
theories/AX_Proofs3.v
theories/AX_Props.v
theories/MKTest_Model.v
theories/MKTest_Spec.v
theories/MKTest_Proofs.v
theories/MKTest_Proofs2.v
theories/MKTest_Proofs3.v
theories/MKTest_Props.v
theories/I2P_Model.v
theories/I2P_Spec.v
theories/I2P_Proofs.v
theories/I2P_Proofs2.v
theories/I2P_Props.v
theories/VH_Model.v
theories/VH_Spec.v
theories/VH_Proofs.v
theories/VH_Proofs2.v
theories/VH_Proofs3.v
theories/VH_Proofs4.v
theories/VH_Proofs5.v
theories/VH_Proofs6.v
theories/VH_Proofs7.v
theories/VH_Proofs8.v
theories/VH_Proofs9.v
theories/VH_Props.v
theories/IS_Model.v
theories/IS_Spec.v
theories/IS_Proofs.v
theories/IS_Proofs2.v
theories/IS_Props.v
theories/LM_Model.v
theories/LM_Spec.v
theories/LM_Proofs.v
theories/LM_Proofs2.v
theories/LM_Proofs3.v
theories/LM_Props.v
theories/LI_Model.v
theories/LI_Spec.v
theories/LI_Proofs.v
theories/LI_Proofs2.v
theories/LI_Proofs3.v
theories/LI_Proofs4.v
theories/LI_Proofs5.v
theories/LI_Proofs6.v
theories/LI_Proofs7.v
theories/LI_Props.v
theories/TG_Model.v
theories/TG_Spec.v
theories/TG_Proofs.v
theories/TG_Proofs2.v
theories/TG_Proofs3.v
theories/TG_Proofs4.v
theories/TG_Proofs5.v
theories/TG_Proofs6.v
theories/TG_Proofs7.v
theories/TG_Props.v
theories/TG_Sphere.v
theories/RG_Model.v
theories/RG_Spec.v
theories/RG_Proofs.v
theories/RG_Proofs2.v
theories/RG_Proofs3.v
theories/RG_Proofs4.v
theories/RG_Proofs5.v
theories/RG_Proofs6.v
theories/RG_Proofs7.v
theories/RG_Proofs8.v
theories/RG_Proofs9.v
theories/RG_Props.v
theories/TP_Model.v
theories/TP_Spec.v
theories/TP_Proofs.v
theories/TP_Proofs2.v
theories/TP_Proofs3.v
theories/TP_Proofs4.v
theories/TP_Log.v
theories/TP_Std.v
theories/TP_Props.v
theories/GW_Model.v
theories/GW_Spec.v
theories/GW_Proofs.v
theories/GW_Proofs2.v
theories/GW_Proofs3.v
theories/GW_Props.v
theories/DC_Model.v
theories/DC_Spec.v
theories/DC_Proofs.v
theories/DC_Proofs2.v
theories/DC_Proofs3.v
theories/DC_Proofs4.v
theories/DC_Proofs5.v
theories/DC_Props.v
theories/SH_Model.v
theories/SH_Spec.v
theories/SH_Proofs.v
theories/SH_Proofs2.v
theories/SH_Proofs3.v
theories/SH_Proofs4.v
theories/SH_Proofs5.v
theories/SH_Float.v
theories/SH_Proofs6.v
theories/SH_Proofs7.v
theories/SH_Props.v
theories/CA_Model.v
theories/CA_Spec.v
theories/CA_Proofs.v
theories/CA_Proofs2.v
theories/CA_Proofs3.v
theories/CA_Proofs4.v
theories/CA_Props.v
theories/GR_Model.v
theories/GR_Spec.v
theories/GR_Proofs.v
theories/GR_Proofs2.v
theories/GR_Props.v
theories/LZ_Model.v
theories/LZ_Spec.v
theories/LZ_Proofs.v
theories/LZ_Props.v
theories/LC_Model.v
theories/LC_Spec.v
theories/LC_Proofs.v
theories/LC_Proofs2.v
theories/LC_Props.v
theories/RC_Model.v
theories/RC_Spec.v
theories/RC_Proofs.v
theories/RC_Proofs2.v
theories/RC_Proofs3.v
theories/RC_Proofs4.v
theories/RC_Proofs5.v
theories/RC_Proofs6.v
theories/RC_Proofs7.v
theories/RC_Proofs8.v
theories/RC_Grids.v
theories/RC_Props.v
theories/RC_Props2.v
theories/RC_Geo.v
theories/GB_Model.v
theories/GB_Spec.v
theories/GB_Real.v
theories/GB_Proofs1.v
theories/GB_Proofs2.v
theories/GB_Proofs3.v
theories/GB_Proofs4.v
theories/GB_Grids.v
theories/GB_Props.v
theories/GB_Props2.v
theories/GB_Refute.v
theories/GB_Spec2.v
theories/GB_Interp.v
theories/GB_Props3.v
theories/GB_Props4.v
theories/RS_Model.v
theories/RS_Model2.v
theories/RS_Spec.v
theories/RS_Dft.v
theories/RS_Proofs1.v
theories/RS_Proofs2.v
theories/RS_Proofs3.v
theories/RS_Proofs4.v
theories/RS_Proofs5.v
theories/RS_Proofs6.v
theories/RS_Proofs7.v
theories/RS_Proofs8.v
theories/RS_Table.v
theories/RS_Props1.v
theories/RS_Props2.v
theories/PI_Model.v
theories/PI_Model2.v
theories/PI_Spec.v
theories/PI_Proofs1.v
theories/PI_Proofs2.v
theories/PI_Proofs3.v
theories/PI_Proofs4.v
theories/PI_Dry.v
theories/PI_Wit.v
theories/PI_Wit2.v
theories/PI_Props1.v
theories/PI_Props2.v
theories/PI_Props3.v
theories/PI_Py.v
theories/PI_PySpec.v
theories/PI_PyProofs.v
theories/PI_PyProofs2.v
theories/PI_PyProps.v
theories/PI_PyProps2.v
theories/PI_PyProps3.v
theories/PI_PyProps4.v
theories/EC_Model.v
theories/EC_Spec.v
theories/EC_Proofs.v
theories/EC_Props.v
theories/EC_Proofs2.v
theories/EC_Props2.v
theories/EC_Props3.v
theories/EC_Props4.v
theories/FF_Model.v
theories/FF_Proofs.v
theories/FF_Proofs2.v
theories/FF_Proofs3.v
theories/FF_Proofs4.v
theories/FF_Proofs5.v
theories/FF_Proofs6.v
theories/FF_Proofs7.v
theories/FF_Proofs8.v
theories/FF_Proofs9.v
theories/FF_Proofs10.v
theories/FF_Props.v
theories/FF_Model2.v
theories/FF_Proofs11.v
theories/FF_Proofs12.v
theories/FF_Proofs13.v
theories/FF_Proofs14.v
theories/FF_Props2.v
theories/FF_Props3.v
theories/GS_Spec.v
theories/GS_Model.v
theories/GS_Proofs1.v
theories/GS_Proofs2.v
theories/GS_Proofs3.v
theories/GS_Proofs4.v
theories/GS_Proofs5.v
theories/GS_Proofs6.v
theories/GS_Proofs7.v
theories/GS_Proofs8.v
theories/GS_Props.v
theories/LG_Spec.v
theories/LG_Model.v
theories/LG_Proofs1.v
theories/LG_Proofs2.v
theories/LG_Proofs3.v
theories/LG_Proofs4.v
theories/LG_Proofs5.v
theories/LG_Proofs6.v
theories/LG_Proofs7.v
theories/LG_Props.v
theories/GQ_Spec.v
theories/GQ_Model.v
theories/GQ_Proofs1.v
theories/GQ_Proofs2.v
theories/GQ_Proofs3.v
theories/GQ_Proofs4.v
theories/GQ_Proofs5.v
theories/GQ_Props.v
theories/ST_Spec.v
theories/ST_Model.v
theories/ST_Proofs1.v
theories/ST_Proofs2.v
theories/ST_Proofs3.v
theories/ST_Proofs4.v
theories/ST_Props.v
theories/SM_Model.v
theories/SM_Proofs.v
theories/SM_Props.v
theories/AL_Model.v
theories/AL_Spec.v
theories/AL_Proofs1.v
theories/AL_Proofs2.v
theories/AL_Proofs3.v
theories/AL_Props.v
theories/RL_Model.v
theories/RL_Proofs1.v
theories/RL_Proofs2.v
theories/RL_Props.v
theories/HL_Model.v
theories/HL_Spec.v
theories/HL_Proofs.v
theories/HL_Props.v
