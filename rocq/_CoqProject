-Q theories Verif
theories/Base.v
theories/StrcalcModel.v
theories/StrcalcSpec.v
theories/StrcalcProofs.v
theories/StrcalcProofs2.v
theories/StrcalcProofs3.v
theories/StrcalcProofs4.v
theories/StrcalcProofs5.v
theories/StrcalcProofs6.v
theories/StrcalcProofs7.v
theories/StrcalcProps.v
theories/TarvalModel.v
theories/TarvalSpec.v
theories/TarvalProofs.v
theories/TarvalProofs2.v
theories/TarvalProofs3.v
theories/TarvalProofs4.v
theories/TarvalProps.v
theories/BitfiddleModel.v
theories/BitfiddleSpec.v
theories/BitfiddleProofs.v
theories/BitfiddleProps.v
theories/UnionfindModel.v
theories/UnionfindSpec.v
theories/UnionfindProofs.v
theories/UnionfindProps.v
theories/ArrayModel.v
theories/ArraySpec.v
theories/ArrayProofs.v
theories/ArrayProps.v
theories/PqueueModel.v
theories/PqueueSpec.v
theories/PqueueProofs.v
theories/PqueueProps.v
theories/DeqModel.v
theories/DeqSpec.v
theories/DeqProofs.v
theories/DeqProofs2.v
theories/DeqProofs3.v
theories/DeqProps.v
theories/SetModel.v
theories/SetSpec.v
theories/SetProofs.v
theories/SetProofs2.v
theories/SetProps.v
theories/InternModel.v
theories/InternProofs.v
theories/InternProps.v
theories/HashsetModel.v
theories/HashsetSpec.v
theories/HashsetProofs.v
theories/HashsetProofs2.v
theories/HashsetProofs3.v
theories/HashsetProps.v
theories/ArchModel.v
theories/ArchSpec.v
theories/ArchProofs.v
theories/ArchProofs2.v
theories/ArchProofs3.v
theories/ArchProofs4.v
theories/ArchProofs5.v
theories/ArchProofs6.v
theories/ArchProofs7.v
theories/ArchProofs8.v
theories/ArchProofs9.v
theories/ArchProps.v
theories/ConstbitsModel.v
theories/ConstbitsSpec.v
theories/ConstbitsProofs.v
theories/ConstbitsProofs2.v
theories/ConstbitsProofs3.v
theories/ConstbitsProofs4.v
theories/ConstbitsProps.v
theories/PermModel.v
theories/PermSpec.v
theories/PermProofs.v
theories/PermProofs2.v
theories/PermProps.v
theories/RelModel.v
theories/RelSpec.v
theories/RelProofs.v
theories/RelProofs2.v
theories/RelProps.v
theories/VrpModel.v
theories/VrpSpec.v
theories/VrpProofs.v
theories/VrpProofs2.v
theories/VrpProofs3.v
theories/VrpProofs4.v
theories/VrpProofs5.v
theories/VrpProps.v
theories/IrModel.v
theories/IrSpec.v
theories/IrProofs.v
theories/IrProofs2.v
theories/IrExamples.v
theories/CvModel.v
theories/CvSpec.v
theories/CvProofs.v
theories/CvProofs2.v
theories/CvProofs3.v
theories/CvProps.v
theories/EqModel.v
theories/EqSpec.v
theories/EqProofs.v
theories/EqProofs2.v
theories/EqProps.v
theories/FltModel.v
theories/FltSpec.v
theories/FltProofs.v
theories/FltProofs2.v
theories/FltProofs3.v
theories/FltProofs4.v
theories/FltProofs5.v
theories/FltProofs6.v
theories/FltProofs7.v
theories/FltProofs8.v
theories/FltProps.v
theories/TrModel.v
theories/TrSpec.v
theories/TrProofs.v
theories/TrProofs2.v
theories/TrProofs3.v
theories/TrProps.v
theories/TaModel.v
theories/TaSpec.v
theories/TaProofs.v
theories/TaProofs2.v
theories/TaProofs3.v
theories/TaProps.v
theories/BitsetModel.v
theories/BitsetSpec.v
theories/BitsetProofs.v
theories/BitsetProps.v
theories/SwitchModel.v
theories/SwitchSpec.v
theories/SwitchProofs.v
theories/SwitchProps.v
theories/LayoutModel.v
theories/LayoutSpec.v
theories/LayoutProofs.v
theories/LayoutProps.v
theories/PbqpModel.v
theories/PbqpSpec.v
theories/PbqpProofs.v
theories/PbqpProofs2.v
theories/PbqpProofs3.v
theories/PbqpProofs4.v
theories/PbqpProofs5.v
theories/PbqpBound.v
theories/PbqpBound2.v
theories/PbqpBound3.v
theories/PbqpProps.v
theories/DomModel.v
theories/DomTree.v
theories/DomLT.v
theories/DomDfs.v
theories/DomFin.v
theories/DomFin2.v
theories/DomSpec.v
theories/DomProofs.v
theories/DomMain.v
theories/DomProps.v
theories/TsModel.v
theories/TsSpec.v
theories/TsProofs.v
theories/TsProofs2.v
theories/TsProps.v
theories/DwModel.v
theories/DwSpec.v
theories/DwProofs.v
theories/DwProofs2.v
theories/DwProofs3.v
theories/DwProofs4.v
theories/DwProofs5.v
theories/DwProofs6.v
theories/DwProofs7.v
theories/DwProofs8.v
theories/DwProofs9.v
theories/DwProps.v
theories/CmModel.v
theories/CmSpec.v
theories/CmProofs.v
theories/CmProps.v
theories/MxModel.v
theories/MxSpec.v
theories/MxProofs.v
theories/MxProps.v
theories/DvModel.v
theories/DvSpec.v
theories/DvProofs.v
theories/DvProofs2.v
theories/DvProps.v
theories/AliasModel.v
theories/AliasSpec.v
theories/AliasProofs.v
theories/AliasProofs2.v
theories/AliasProofs3.v
theories/AliasProps.v
theories/BoModel.v
theories/BoSpec.v
theories/BoProofs.v
theories/BoProps.v
theories/DcaModel.v
theories/DcaSpec.v
theories/DcaProofs.v
theories/DcaProofs2.v
theories/DcaProofs3.v
theories/DcaProofs4.v
theories/DcaProofs5.v
theories/DcaProps.v
theories/RvModel.v
theories/RvSpec.v
theories/RvProofs.v
theories/RvProofs2.v
theories/RvProofs3.v
theories/RvProofs4.v
theories/RvProps.v
theories/CoModel.v
theories/CoSpec.v
theories/CoProofs.v
theories/CoProofs2.v
theories/CoProps.v
theories/LbModel.v
theories/LbSpec.v
theories/LbProofs.v
theories/LbProofs2.v
theories/LbProps.v
theories/CbModel.v
theories/CbSpec.v
theories/CbProofs.v
theories/CbProps.v
theories/BuModel.v
theories/BuSpec.v
theories/BuProofs.v
theories/BuProps.v
theories/IoModel.v
theories/IoSpec.v
theories/IoProofs.v
theories/IoProofs2.v
theories/IoProps.v
theories/GasModel.v
theories/GasSpec.v
theories/GasProofs.v
theories/GasProofs2.v
theories/GasProofs3.v
theories/GasProofs4.v
theories/GasProps.v
theories/ArmModel.v
theories/ArmSpec.v
theories/ArmProofs.v
theories/ArmProofs2.v
theories/ArmProofs3.v
theories/ArmProofs4.v
theories/ArmProps.v
theories/SparcModel.v
theories/SparcSpec.v
theories/SparcProofs.v
theories/SparcProofs2.v
theories/SparcProps.v
theories/AllocModel.v
theories/AllocSpec.v
theories/AllocProofs.v
theories/AllocProps.v
theories/AddrmodeModel.v
theories/AddrmodeSpec.v
theories/AddrmodeProofs.v
theories/AddrmodeProofs2.v
theories/AddrmodeProofs3.v
theories/AddrmodeProps.v
