-Q theories Verif
theories/Py.v
theories/LatticeModel.v
theories/LatticeSpec.v
theories/LatticeProofs.v
theories/LatticeProps.v
theories/CBase.v
theories/PhcModel.v
theories/PhcSpec.v
theories/PhcProofs.v
theories/PhcProofs2.v
theories/PhcProofs3.v
theories/PhcProofs4.v
theories/PhcProofs5.v
theories/PhcProps.v
theories/ShapesModel.v
theories/ShapesSpec.v
theories/ShapesProofs.v
theories/ShapesProofs2.v
theories/ShapesProofs3.v
theories/CInt.v
theories/ShapesProofs4.v
theories/ShapesProofs5.v
theories/ShapesProofs6.v
theories/ShapesProofs7.v
theories/ShapesProofs8.v
theories/ShapesProofs9.v
theories/ShapesProps.v
theories/RecipModel.v
theories/RecipSpec.v
theories/RecipFloat.v
theories/RecipProofs.v
theories/RecipProofs2.v
theories/RecipProofs3.v
theories/RecipProofs4.v
theories/RecipProofs5.v
theories/RecipProps.v
theories/SlabModel.v
theories/SlabSpec.v
theories/SlabProofs.v
theories/SlabProofs2.v
theories/SlabProofs3.v
theories/SlabProofs4.v
theories/SlabProofs5.v
theories/SlabProofs6.v
theories/SlabProofs7.v
theories/SlabProofs8.v
theories/SlabProofs9.v
theories/SlabProofs10.v
theories/SlabProofs11.v
theories/SlabProps.v
theories/MatElModel.v
theories/MatElSpec.v
theories/MatElProofs.v
theories/MatElProofs2.v
theories/MatElProofs3.v
theories/MatElProofs4.v
theories/MatElProps.v
theories/FieldsModel.v
theories/FieldsSpec.v
theories/FieldsProofs.v
theories/FieldsProofs2.v
theories/FieldsProofs3.v
theories/FieldsProofs4.v
theories/FieldsProofs5.v
theories/FieldsProps.v
theories/SymModel.v
theories/SymSpec.v
theories/SymProofs.v
theories/SymProofs2.v
theories/SymProofs3.v
theories/SymProofs4.v
theories/SymProofs5.v
theories/SymProofs6.v
theories/SymProofs7.v
theories/SymProofs8.v
theories/SymProofs9.v
theories/SymProps.v
theories/RadSpec.v
theories/RadModel.v
theories/RadProofs.v
theories/RadProofs2.v
theories/RadProofs3.v
theories/RadProofs4.v
theories/RadProps.v
theories/RunSpec.v
theories/RunModel.v
theories/RunProofs.v
theories/RunProofs2.v
theories/RunProofs3.v
theories/RunProofs4.v
theories/RunProofs5.v
theories/RunProofs6.v
theories/RunProofs7.v
theories/RunProofs8.v
theories/RunProofs9.v
theories/RunProofs10.v
theories/RunSpec2.v
theories/RunProofs11.v
theories/RunProofs12.v
theories/RunProps.v
theories/CellSpec.v
theories/CellProofs.v
theories/CellProofs2.v
theories/PweSpec.v
theories/PweModel.v
theories/PweProofs.v
theories/PweProofs2.v
theories/PweProofs3.v
theories/PweProofs4.v
theories/PweProofs5.v
theories/PweProofs6.v
theories/PweProofs7.v
theories/PweProofs8.v
theories/PweProps.v
theories/ExcModel.v
theories/ExcSpec.v
theories/ExcProofs.v
theories/ExcProofs2.v
theories/ExcProofs3.v
theories/ExcProofs4.v
theories/ExcProofs5.v
theories/ExcProps.v
theories/PolModel.v
theories/PolSpec.v
theories/PolSpec2.v
theories/PolProofs.v
theories/PolProofs2.v
theories/PolProofs3.v
theories/PolProofs4.v
theories/PolProofs5.v
theories/PolProofs6.v
theories/PolProofs7.v
theories/PolProofs8.v
theories/PolProofs9.v
theories/PolProofs10.v
theories/PolProofs11.v
theories/PolProofs12.v
theories/PolProps.v
theories/MinimizeModel.v
theories/MinimizeSpec.v
theories/MinimizeProofs.v
theories/MinimizeProofs2.v
theories/MinimizeProofs3.v
theories/MinimizeProofs4.v
theories/MinimizeProps.v
theories/MiscModel.v
theories/MiscSpec.v
theories/MiscProofs.v
theories/MiscProofs2.v
theories/MiscProofs3.v
theories/MiscProofs4.v
theories/MiscProofs5.v
theories/MiscProofs6.v
theories/MiscProps.v
theories/PrimSpec.v
theories/PrimModel.v
theories/PrimProofs.v
theories/PrimProofs2.v
theories/PrimProofs3.v
theories/PrimProofs4.v
theories/PrimProofs5.v
theories/PrimProofs6.v
theories/PrimProofs7.v
theories/PrimProofs8.v
theories/PrimProps.v
theories/LinProofs.v
theories/LinProofs2.v
theories/LinProofs3.v
theories/OracSpec.v
theories/OracProofs.v
theories/OracProofs2.v
theories/OracProofs3.v
theories/OracProps.v
theories/OrthSpec.v
theories/OrthProofs.v
theories/OrthProofs2.v
theories/OrthProofs3.v
theories/OrthProofs4.v
theories/OrthProps.v
theories/VizModel.v
theories/VizSpec.v
theories/VizProofs.v
theories/VizProofs2.v
theories/VizProofs3.v
theories/VizProofs4.v
theories/VizProofs5.v
theories/VizProofs6.v
theories/VizProps.v
theories/ErrSpec.v
theories/ErrProofs.v
theories/ErrProps.v
theories/Viz2Model.v
theories/Viz2Spec.v
theories/Viz2Proofs.v
theories/Viz2Proofs2.v
theories/Viz2Proofs3.v
theories/Viz2Props.v
theories/OptModel.v
theories/OptSpec.v
theories/OptProofs.v
theories/OptProofs2.v
theories/OptProps.v
theories/InvSpec.v
theories/InvProofs.v
theories/InvProofs2.v
theories/InvProofs3.v
theories/InvProofs4.v
theories/InvProofs5.v
theories/InvProofs6.v
theories/InvProofs7.v
theories/InvProps.v
theories/GinvSpec.v
theories/GinvProofs.v
theories/GinvProofs2.v
theories/GinvProofs3.v
theories/GinvProofs4.v
theories/GinvProofs5.v
theories/GinvProofs6.v
theories/GinvProofs7.v
theories/GinvProofs8.v
theories/GinvProofs9.v
theories/GinvProps.v
theories/EinvSpec.v
theories/EinvProofs.v
theories/EinvProofs2.v
theories/EinvProofs3.v
theories/EinvProofs4.v
theories/EinvProofs5.v
theories/EinvProofs6.v
theories/EinvProps.v
theories/RepModel.v
theories/RepSpec.v
theories/RepProofs.v
theories/RepProofs2.v
theories/RepProofs3.v
theories/RepProps.v
theories/Viz3Model.v
theories/Viz3Spec.v
theories/Viz3Proofs.v
theories/Viz3Proofs2.v
theories/Viz3Proofs3.v
theories/Viz3Props.v
theories/UnifSpec.v
theories/UnifProofs.v
theories/UnifProofs2.v
theories/UnifProofs3.v
theories/UnifProofs4.v
theories/UnifProofs5.v
theories/UnifProofs6.v
theories/UnifProps.v
theories/RegSpec.v
theories/RegSpec2.v
theories/RegProofs.v
theories/RegProofs2.v
theories/RegProofs3.v
theories/RegProofs4.v
theories/RegProofs5.v
theories/RegProofs6.v
theories/RegProofs7.v
theories/RegProofs8.v
theories/RegProofs9.v
theories/RegProofs10.v
theories/RegProofs11.v
theories/RegProps.v
theories/ImgSpec.v
theories/ImgProofs.v
theories/ImgProofs2.v
theories/ImgProofs3.v
theories/ImgProofs4.v
theories/ImgProps.v
theories/FourSpec.v
theories/FourProofs.v
theories/FourProofs2.v
theories/FourProofs3.v
theories/FourProofs4.v
theories/FourSpec2.v
theories/FourProofs5.v
theories/FourProps.v
